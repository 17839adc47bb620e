(** Model of /repo/store.go, /repo/load.go and of Merge in /repo/radix/load.go.

    A Go [*storeS] is a handle on a shared tree; the tree is threaded through explicitly.
    Callbacks registered by the user are identities; calling one is an event in the result.
    Callbacks that use the store themselves are not modelled. *)
From Coq Require Import List NArith Bool Arith.
From Verif Require Import GoStr Node Trie Spec ApiRefine Cvter.
Import ListNotations.
Open Scope nat_scope.

(** storeS, store.go:94-112, without the unused [saving]; [None] in a handler list is a nil func.
    [so_loading] is loading == 1. *)
Inductive store := Sto {
  so_h : hdl;
  so_loading : bool;
  so_closers : list nat;
  so_chg : list (option nat);
  so_new : list (option nat);
  so_del : list (option nat);
  so_parent : option store;
  so_flat : bool;
  so_watch : bool }.

(** a call of a handler: OnChangeHandler, OnNewHandler, OnDeleteHandler, store.go:165-167 *)
Inductive ev :=
| EChange (id : nat) (path : gostring) (v old : gval) (flag : bool)
| ENew (id : nat) (path : gostring) (v : gval) (flag : bool)
| EDelete (id : nat) (path : gostring) (v : gval) (flag : bool).

(** dupS, store.go:138-147: handlers, parent and closers are not copied *)
Definition dupS (s : store) (h : hdl) : store :=
  Sto h (so_loading s) [] [] [] [] None (so_flat s) (so_watch s).
(** the views of store.go:463-487 *)
Definition st_withPrefix (s : store) (ps : list gostring) : store := dupS s (withPrefix (so_h s) ps).
Definition st_withPrefixReplaced (s : store) (ps : list gostring) : store := dupS s (withPrefixReplaced (so_h s) ps).

(** the loops of tryOnSet and tryOnDelete over one handler list: nil handlers are skipped *)
Fixpoint fire (mk : nat -> ev) (hs : list (option nat)) : list ev :=
  match hs with
  | [] => []
  | Some i :: t => mk i :: fire mk t
  | None :: t => fire mk t
  end.

(** tryOnSet, store.go:348-375: the handlers of the store, then of its parents *)
Fixpoint tryOnSet (s : store) (path : gostring) (user : bool) (old data : gval) (create : bool) : list ev :=
  (if create then fire (fun i => ENew i path data user) (so_new s)
   else fire (fun i => EChange i path data old user) (so_chg s)) ++
  match so_parent s with Some p => tryOnSet p path user old data create | None => [] end.
(** tryOnDelete, store.go:377-390 *)
Fixpoint tryOnDelete (s : store) (path : gostring) (user : bool) (old : gval) : list ev :=
  fire (fun i => EDelete i path old user) (so_del s) ++
  match so_parent s with Some p => tryOnDelete p path user old | None => [] end.

(** setKV, store.go:329-346.  [onSet] is the list of methods the callback applies to the node,
    [] for nil.  The node returned by Set is never nil. *)
Definition setKV (s : store) (t : tr) (path : gostring) (data : gval) (create : bool) (onSet : list nodeop)
  : res (tr * nat * gval * list ev) :=
  do (t1, id, old) <- Set_ (so_h s) t path data;
  let user := negb (so_loading s) in
  let create := if user then if gval_is_nil old then create else false else create in
  let t2 := if user
            then Tr (upd id (fun n => fold_left (fun n o => n_nodeop o n) (onSet ++ [NSetModified true]) n) (root t1)) (next t1)
            else t1 in
  Ok (t2, id, old, tryOnSet s path user old data create).

Section WithFuel.
Variable rf : nat.

(** Set, store.go:246-260; the value [old] of the query is overwritten by what setKV returns *)
Definition st_Set (s : store) (t : tr) (path : gostring) (data : gval) : res (tr * nat * gval * list ev) :=
  do q <- Query rf (so_h s) t path;
  setKV s t path data (negb (q_found q)) [].

(** Remove, store.go:392-401, and RemoveEx, store.go:403-411 *)
Definition st_Remove (s : store) (t : tr) (path : gostring) : res (tr * bool * list ev) :=
  do (t', n, _, removed) <- RemoveEx rf (so_h s) t path;
  Ok (t', removed,
      if removed : bool
      then match n with
           | Some n => tryOnDelete s path (negb (so_loading s)) (ndata n)
           | None => []
           end
      else []).

(** Get, store.go:240-243, and MustGet, store.go:227-237, are those of the trie; Has, store.go:414-416,
    is Search. *)
Definition st_Get (s : store) (t : tr) (path : gostring) : res (gval * bool) := Get rf (so_h s) t path.
Definition st_MustGet (s : store) (t : tr) (path : gostring) : res gval := MustGet rf (so_h s) t path.
Definition st_Has (s : store) (t : tr) (path : gostring) : res bool := Search_ rf (so_h s) t path.
End WithFuel.

(** privateSetter, load.go:178-182 *)
Definition privateSetter (s : store) (position k : gostring) (v : gval) (create : bool) (onSet : list nodeop) (t : tr)
  : res (tr * list ev) :=
  do (t', _, _, e) <- setKV (st_withPrefixReplaced s [position]) t k v create onSet;
  Ok (t', e).

(** buf = k + byte(delimiter) + decimal i, load.go:196-198 *)
Definition slot (d : rune) (k : gostring) (i : nat) : gostring := k ++ [delim_byte d] ++ itoa (N.of_nat i).

Section Load.
(** cvt.String of github.com/hedzr/evendeep *)
Variable str : gval -> gostring.

(** loadMapByValueType, load.go:184-265, with loadMap and loadMapAny, load.go:159-176, as the inner
    loops.  Maps are iterated in the order of their entries.  The errors attached are always nil. *)
Fixpoint loadVal (s : store) (create : bool) (onSet : list nodeop) (v : gval) (position k : gostring) (t : tr)
  {struct v} : res (tr * list ev) :=
  let d := hdelim (so_h s) in
  let sub k := Join d [position; k] in
  match v with
  | GPkg v' _ _ _ => loadVal s create onSet v' position k t
  | GMap m =>
      (fix go (m : list (gostring * gval)) (t : tr) :=
         match m with
         | [] => Ok (t, [])
         | (k', v') :: r =>
             do (t1, e1) <- loadVal s create onSet v' (sub k) k' t;
             do (t2, e2) <- go r t1; Ok (t2, e1 ++ e2)
         end) m t
  | GAMap m =>
      (fix go (m : list (gval * gval)) (t : tr) :=
         match m with
         | [] => Ok (t, [])
         | (k', v') :: r =>
             do (t1, e1) <- loadVal s create onSet v' (sub k) (str k') t;
             do (t2, e2) <- go r t1; Ok (t2, e1 ++ e2)
         end) m t
  | GMaps l =>
      if so_flat s then
        (fix each (i : nat) (l : list (list (gostring * gval))) (t : tr) :=
           match l with
           | [] => Ok (t, [])
           | m :: l' =>
               do (t1, e1) <-
                 (fix go (m : list (gostring * gval)) (t : tr) :=
                    match m with
                    | [] => Ok (t, [])
                    | (k', v') :: r =>
                        do (t1, e1) <- loadVal s create onSet v' (sub (slot d k i)) k' t;
                        do (t2, e2) <- go r t1; Ok (t2, e1 ++ e2)
                    end) m t;
               do (t2, e2) <- each (S i) l' t1; Ok (t2, e1 ++ e2)
           end) 0 l t
      else privateSetter s position k v create onSet t
  | GAMaps l =>
      if so_flat s then
        (fix each (i : nat) (l : list (list (gval * gval))) (t : tr) :=
           match l with
           | [] => Ok (t, [])
           | m :: l' =>
               do (t1, e1) <-
                 (fix go (m : list (gval * gval)) (t : tr) :=
                    match m with
                    | [] => Ok (t, [])
                    | (k', v') :: r =>
                        do (t1, e1) <- loadVal s create onSet v' (sub (slot d k i)) (str k') t;
                        do (t2, e2) <- go r t1; Ok (t2, e1 ++ e2)
                    end) m t;
               do (t2, e2) <- each (S i) l' t1; Ok (t2, e1 ++ e2)
           end) 0 l t
      else privateSetter s position k v create onSet t
  | GList l =>
      if so_flat s then
        (fix each (i : nat) (l : list gval) (t : tr) :=
           match l with
           | [] => Ok (t, [])
           | v' :: l' =>
               do (t1, e1) <- loadVal s create onSet v' position (slot d k i) t;
               do (t2, e2) <- each (S i) l' t1; Ok (t2, e1 ++ e2)
           end) 0 l t
      else privateSetter s position k v create onSet t
  | _ => privateSetter s position k v create onSet t
  end.

(** loadMap, load.go:169-176 *)
Fixpoint loadMap (s : store) (create : bool) (onSet : list nodeop) (m : gmap) (position : gostring) (t : tr)
  : res (tr * list ev) :=
  match m with
  | [] => Ok (t, [])
  | (k, v) :: r =>
      do (t1, e1) <- loadVal s create onSet v position k t;
      do (t2, e2) <- loadMap s create onSet r position t1; Ok (t2, e1 ++ e2)
  end.

(** ValPkg, new.go:332-337 *)
Record pkg := Pkg { p_value : gval; p_desc : gostring; p_cmt : gostring; p_tag : gval }.

(** loadMapDedicated, load.go:147-157 *)
Fixpoint loadMapDedicated (s : store) (create : bool) (m : list (gostring * pkg)) (position : gostring) (t : tr)
  : res (tr * list ev) :=
  match m with
  | [] => Ok (t, [])
  | (k, p) :: r =>
      do (t1, e1) <- loadVal s create [NSetComment (p_desc p) (p_cmt p); NSetTag (p_tag p)] (p_value p) position k t;
      do (t2, e2) <- loadMapDedicated s create r position t1; Ok (t2, e1 ++ e2)
  end.

(** Merge, store.go:290-304 *)
Definition st_Merge (s : store) (t : tr) (pathAt : gostring) (m : gmap) : res (tr * list ev) :=
  loadMap s false [] m pathAt t.

(** ** Load *)
Inductive lerr := ENotImpl | EOther (n : nat).
Definition outcome A := (A + lerr)%type.
(** what a provider answers.  [pv_once]: it is an OnceProvider and this is ReadBytes();
    [pv_stream]: it is a StreamProvider, its keys up to eol and MustValue(key). *)
Record provider := Prov {
  pv_read : option (list (gostring * pkg)) * option lerr;
  pv_once : option (gostring * option lerr);
  pv_stream : option (list (gostring * gval));
  pv_codec : option (gostring -> option gmap * option lerr);
  pv_watch : option nat       (* Watchable: the closer to register if Watch gives no error *)
}.
(** json.Unmarshal *)
Variable json : gostring -> option gmap * option lerr.

(** the streaming loop of tryLoad, load.go:523-531 *)
Fixpoint stream (s : store) (kvs : list (gostring * gval)) (t : tr) : res (tr * list ev) :=
  match kvs with
  | [] => Ok (t, [])
  | (k, v) :: r =>
      do (t1, _, _, e1) <- setKV s t k v true [];
      do (t2, e2) <- stream s r t1; Ok (t2, e1 ++ e2)
  end.

(** tryLoad, load.go:501-545: data, bin, err.  [codec] is the loader's codec after newLoader *)
Definition tryLoad (s : store) (pv : option provider) (codec : option (gostring -> option gmap * option lerr)) (t : tr)
  : res (tr * list ev * option (list (gostring * pkg)) * option gmap * option lerr) :=
  match pv with
  | None => Ok (t, [], None, None, None)
  | Some pv =>
      match pv_read pv with
      | (data, None) => Ok (t, [], data, None, None)
      | (data, Some e) =>
          do (t1, evs, b, err) <-
            match e with
            | ENotImpl =>
                match pv_once pv with
                | Some (b, e) => Ok (t, [], b, e)
                | None => match pv_stream pv with
                          | Some kvs => do (t1, evs) <- stream s kvs t; Ok (t1, evs, [], None)
                          | None => Ok (t, [], [], Some e)
                          end
                end
            | _ => Ok (t, [], [], Some e)
            end;
          match err with
          | Some e => Ok (t1, evs, data, None, Some e)
          | None =>
              match codec with
              | Some c => let '(bin, e) := c b in Ok (t1, evs, data, bin, e)
              | None => match data with
                        | None => let '(bin, e) := json b in Ok (t1, evs, data, bin, e)
                        | Some _ => Ok (t1, evs, data, None, None)
                        end
              end
          end
      end
  end.

(** the options of newLoader, load.go:367-398, in the order given *)
Inductive lopt :=
| LProvider (p : provider)
| LCodec (c : gostring -> option gmap * option lerr)
| LStorePrefix (p : gostring)
| LFlat (b : bool)
| LNoWatch (b : bool).
(** [ld_s]: the store embedded in the loader; [ld_recv]: the receiver of Load, if it is another one *)
Record loader := Ldr { ld_s : store; ld_recv : option store; ld_pv : option provider;
                       ld_codec : option (gostring -> option gmap * option lerr); ld_nowatch : bool }.
(** WithStorePrefix, load.go:440-444, replaces the store by a view made of it;
    WithStoreFlattenSlice, load.go:455-459, sets the flag of whichever store the loader has *)
Definition set_flat (s : store) (b : bool) : store :=
  Sto (so_h s) (so_loading s) (so_closers s) (so_chg s) (so_new s) (so_del s) (so_parent s) b (so_watch s).
Definition apply_lopt (l : loader) (o : lopt) : loader :=
  match o with
  | LProvider p => Ldr (ld_s l) (ld_recv l) (Some p) (ld_codec l) (ld_nowatch l)
  | LCodec c => Ldr (ld_s l) (ld_recv l) (ld_pv l) (Some c) (ld_nowatch l)
  | LStorePrefix p =>
      Ldr (st_withPrefixReplaced (ld_s l) [p]) (Some match ld_recv l with Some r => r | None => ld_s l end)
          (ld_pv l) (ld_codec l) (ld_nowatch l)
  | LFlat b => Ldr (set_flat (ld_s l) b) (ld_recv l) (ld_pv l) (ld_codec l) (ld_nowatch l)
  | LNoWatch b => Ldr (ld_s l) (ld_recv l) (ld_pv l) (ld_codec l) b
  end.
Definition newLoader (s : store) (os : list lopt) : loader :=
  let l := fold_left apply_lopt os (Ldr s None None None false) in
  Ldr (ld_s l) (ld_recv l) (ld_pv l)
      (match ld_codec l with Some c => Some c | None => match ld_pv l with Some p => pv_codec p | None => None end end)
      (ld_nowatch l).

Definition set_loading (s : store) (b : bool) : store :=
  Sto (so_h s) b (so_closers s) (so_chg s) (so_new s) (so_del s) (so_parent s) (so_flat s) (so_watch s).
Definition add_closer (s : store) (c : nat) : store :=
  Sto (so_h s) (so_loading s) (so_closers s ++ [c]) (so_chg s) (so_new s) (so_del s) (so_parent s) (so_flat s) (so_watch s).

(** startWatch, load.go:300-311: the store of the loader gets the closer *)
Definition startWatch (s : store) (pv : option provider) : store :=
  if so_watch s
  then match pv with
       | Some p => match pv_watch p with Some c => add_closer s c | None => s end
       | None => s
       end
  else s.

(** Load, load.go:91-132, called by one thread.  The result: the receiver afterwards, the loader
    returned as Writeable (None: nil), the handler calls and the error. *)
Record lres := LRes { lr_s : store; lr_t : tr; lr_wr : option loader; lr_ev : list ev; lr_err : option lerr }.
Definition Load (s : store) (t : tr) (os : list lopt) : res lres :=
  if so_loading s then Ok (LRes s t None [] None)
  else
    let ld := newLoader (set_loading s true) os in
    let ls := ld_s ld in
    (* the receiver, as the loader leaves it; loading is reset by the deferred function *)
    let back (ls : store) := set_loading match ld_recv ld with Some r => r | None => ls end false in
    do (t1, e1, data, bin, err) <- tryLoad ls (ld_pv ld) (ld_codec ld) t;
    match err with
    | Some e => Ok (LRes (back ls) t1 None e1 (Some e))
    | None =>
        let prefix := hprefix (so_h ls) in
        do (t2, e2) <- match data with Some d => loadMapDedicated ls true d prefix t1 | None => Ok (t1, []) end;
        do (t3, e3) <- match bin with Some m => loadMap ls true [] m prefix t2 | None => Ok (t2, []) end;
        let ok := match data, bin with None, None => false | _, _ => true end in
        let ls' := if ok && negb (ld_nowatch ld) then startWatch ls (ld_pv ld) else ls in
        Ok (LRes (back ls') t3
                 (if ok then Some (Ldr match ld_recv ld with Some _ => ls' | None => set_loading ls' false end (ld_recv ld) (ld_pv ld) (ld_codec ld) (ld_nowatch ld)) else None)
                 (e1 ++ e2 ++ e3) None)
    end.

(** Close, store.go:220-224: the closers called *)
Definition st_Close (s : store) : list nat := so_closers s.
End Load.

(** ** Save *)
(** trySave, load.go:608-640: the map handed to the codec, if any.  [order]: the iteration order of
    the Go maps made by GetM. *)
Definition trySave (rf : nat) (order : gmap -> gmap) (ld : loader) (t : tr) : res (option gmap) :=
  match ld_codec ld, ld_pv ld with
  | Some _, Some _ =>
      do m <- GetM rf order (so_h (ld_s ld)) t [] (MOpts false true (Some modified));
      Ok (match m with Some (x :: r) => Some (x :: r) | _ => None end)
  | _, _ => Ok None
  end.

(** ** External changes *)
(** a Change: its operations (op.go:56-80) and what Next() delivers *)
Record change := Chg { c_create : bool; c_write : bool; c_remove : bool; c_pairs : list (gostring * gval) }.

(** applyChanges, load.go:324-359, without the debug output *)
Fixpoint apply_sets (s : store) (create : bool) (kvs : list (gostring * gval)) (t : tr) : res (tr * list ev) :=
  match kvs with
  | [] => Ok (t, [])
  | (k, v) :: r =>
      do (t1, _, _, e1) <- setKV s t k v create [];
      do (t2, e2) <- apply_sets s create r t1; Ok (t2, e1 ++ e2)
  end.
Fixpoint apply_removes (rf : nat) (s : store) (kvs : list (gostring * gval)) (t : tr) : res (tr * list ev) :=
  match kvs with
  | [] => Ok (t, [])
  | (k, _) :: r =>
      do (t1, _, e1) <- st_Remove rf s t k;
      do (t2, e2) <- apply_removes rf s r t1; Ok (t2, e1 ++ e2)
  end.
Definition applyChanges (rf : nat) (s : store) (c : change) (t : tr) : res (tr * list ev) :=
  if c_create c || c_write c then apply_sets s (c_create c) (c_pairs c) t
  else if c_remove c then apply_removes rf s (c_pairs c) t
  else Ok (t, []).

(** the [any] a provider passes to the callback: nil, a pointer to a change, or a change by value.
    The methods of Change have pointer receivers, providers/file/change.go:19-31, so only the
    pointer passes the type assertion event.(Change). *)
Inductive anyev := EvNil | EvPtr (c : change) | EvVal (c : change).
Definition as_Change (e : anyev) : option change := match e with EvPtr c => Some c | _ => None end.
(** the callback of the file provider, providers/file/file.go:217: cb(lastChange, nil) by value *)
Definition file_event (c : change) : anyev := EvVal c.

(** applyExternalChanges, load.go:313-322 *)
Definition applyExternalChanges (rf : nat) (s : store) (event : anyev) (err : bool) (t : tr) : res (tr * list ev) :=
  if err then Ok (t, [])
  else match as_Change event with Some c => applyChanges rf s c t | None => Ok (t, []) end.

(** ** radix/load.go:59-97: Merge of the trie *)
(** loadMapByValueType; [d] the delimiter, [pre] the prefix of the receiver.  v.(T) panics for nil. *)
Fixpoint tloadVal (h : hdl) (v : gval) (k : gostring) (t : tr) {struct v} : res tr :=
  let d := hdelim h in
  match v with
  | GMap m =>
      (fix go (m : list (gostring * gval)) (t : tr) : res tr :=
         match m with
         | [] => Ok t
         | (k', v') :: r => do t1 <- tloadVal (withPrefixReplaced h [k]) v' k' t; go r t1
         end) m t
  | GMaps l =>
      (fix each (i : nat) (l : list (list (gostring * gval))) (t : tr) : res tr :=
         match l with
         | [] => Ok t
         | m :: l' =>
             do t1 <- (fix go (m : list (gostring * gval)) (t : tr) : res tr :=
                         match m with
                         | [] => Ok t
                         | (k', v') :: r => do t1 <- tloadVal (withPrefix h [slot d k i]) v' k' t; go r t1
                         end) m t;
             each (S i) l' t1
         end) 0 l t
  | GList l =>
      (fix each (i : nat) (l : list gval) (t : tr) : res tr :=
         match l with
         | [] => Ok t
         | v' :: l' =>
             let pre := if is_nil (hprefix h) then [] else hprefix h ++ [delim_byte d] in
             do t1 <- tloadVal h v' (pre ++ slot d k i) t;
             each (S i) l' t1
         end) 0 l t
  | GNil => Panic
  | _ => do (t', _, _) <- Set_ h t k v; Ok t'
  end.
Fixpoint tloadMap (h : hdl) (m : gmap) (t : tr) : res tr :=
  match m with
  | [] => Ok t
  | (k, v) :: r => do t1 <- tloadVal h v k t; tloadMap h r t1
  end.
(** Merge, trie.go:477-483 *)
Definition Merge (h : hdl) (t : tr) (pathAt : gostring) (m : gmap) : res tr := tloadMap (withPrefix h [pathAt]) m t.
