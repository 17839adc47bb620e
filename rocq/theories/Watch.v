(** Models of what joins the providers and the store: the handlers of the watchers of consul and etcd,
    which turn an event into a change and apply it, and their Read(). *)
From Coq Require Import List NArith Bool Arith.
From Verif Require Import GoStr Trie Cvter Store Misc Provider.
Import ListNotations.
Open Scope nat_scope.

(** ** the providers made of a map: env, flags, maps; Read gives the map: providers/env/env.go:186-188,
    providers/flags/flags.go:178-180 *)
Definition map_provider (m : gmap) : provider :=
  Prov (Some (map (fun e => (fst e, Pkg (snd e) [] [] GNil)) m), None) None None None None.

Section Watch.
Variable rf : nat.
(** the store, with its handle, and the naming of the provider *)
Variable st : store.
Variable o : nkopts.
(** a []byte as a value *)
Variable bytes : gostring -> gval.

(** ** consul *)
(** the change as applyChanges sees it: Has before the first Next, providers/consul/change.go:30, and the
    pairs of Next, change.go:33-59, with []byte values *)
Definition consul_change (op : N) (ps : list kvpair) : change :=
  Store.Chg (has_op op OpCreate) (has_op op OpWrite) (has_op op OpRemove)
            (map (fun p => (NormalizeKey o (kv_key p), bytes (kv_val p))) ps).
(** one call of the handler of a recursive watch, providers/consul/consul.go:300-303 *)
Definition consul_handle (s : chg) (t : tr) (w : list kvpair) (idx : N) : res (chg * tr * list ev) :=
  do (s', op, ps) <- consul_event true s (CVPairs w) idx;
  do (t', e) <- applyExternalChanges rf st (EvPtr (consul_change op ps)) false t;
  Ok (s', t', e).
(** the map made by Read: later pairs replace earlier ones of the same key *)
Fixpoint pset {A} (m : list (gostring * A)) (k : gostring) (v : A) : list (gostring * A) :=
  match m with
  | [] => [(k, v)]
  | (k', v') :: r => if str_eqb k' k then (k, v) :: r else (k', v') :: pset r k v
  end.
(** Read, recursive, consul.go:141-190; [meta] makes the Tag of a pair (nil without processMeta) *)
Definition consul_ReadAll (meta : kvpair -> gval) (w : list kvpair) : list (gostring * pkg) :=
  fold_left (fun m p => pset m (NormalizeKey o (kv_key p)) (Pkg (GStr (kv_val p)) [] [] (meta p))) w [].
(** Read of one key, consul.go:192-226: the client gives a nil pair and no error for a missing key, and
    pair.Key is read without a test *)
Definition consul_ReadOne (meta : kvpair -> gval) (p : option kvpair) : res (list (gostring * pkg)) :=
  match p with
  | None => Panic
  | Some p => Ok [(NormalizeKey o (kv_key p), Pkg (GStr (kv_val p)) [] [] (meta p))]
  end.

(** ** etcd *)
(** one event, providers/etcd/etcd.go:247-250 and change.go:25-52 *)
Definition etcd_change (e : eev) : change :=
  Store.Chg (has_op (etcd_op e) OpCreate) (has_op (etcd_op e) OpWrite) (has_op (etcd_op e) OpRemove)
            (match snd (etcd_Next o e 0) with Some kv => [kv] | None => [] end).
Definition etcd_handle (t : tr) (e : eev) : res (tr * list ev) :=
  applyExternalChanges rf st (EvPtr (etcd_change e)) false t.
(** the events of a watch, in order *)
Fixpoint etcd_handles (t : tr) (l : list eev) : res (tr * list ev) :=
  match l with
  | [] => Ok (t, [])
  | e :: r => do (t1, e1) <- etcd_handle t e; do (t2, e2) <- etcd_handles t1 r; Ok (t2, e1 ++ e2)
  end.
(** Read, etcd.go:169-205: the pairs of the response *)
Definition etcd_Read (kvs : list (gostring * gostring)) : list (gostring * pkg) :=
  fold_left (fun m kv => pset m (NormalizeKey o (fst kv)) (Pkg (GStr (snd kv)) [] [] GNil)) kvs [].
End Watch.
