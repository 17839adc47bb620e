(** Models of the options of Load and of the settings the providers keep: newLoader, load.go:367-460,
    with positions and codecs, and GetCodec/GetPosition/WithCodec/WithPosition of the providers.
    Store.v has Load for a provider that is what it answers; here the provider is a record of settings
    that Load changes before it reads. *)
From Coq Require Import List NArith Bool Arith.
From Verif Require Import GoStr Trie Cvter Store Misc Provider Watch.
Import ListNotations.
Open Scope nat_scope.

(** a codec: its Unmarshal *)
Definition codec := gostring -> option gmap * option lerr.

(** what a provider reads from *)
Inductive source :=
(** env and flags: s.m as made by prepare() in New, providers/env/env.go:12-19, flags.go:13-20 *)
| SNames (data : list (gostring * pkg))
(** maps: s.m as made by New, providers/maps/maps.go:14-36 *)
| SMap (data : list (gostring * pkg))
(** file and fs: the bytes and the error of os.ReadFile, providers/file/file.go:98-101, or of
    Open and ReadAll, providers/fs/fs.go:87-96 *)
| SBytes (data : gostring) (err : option lerr)
(** consul: the pairs of the server, whether WithRecursive was given, the tag of a pair, and an error
    of the server, providers/consul/consul.go:141-226 *)
| SConsul (o : nkopts) (pairs : list kvpair) (recursive : bool) (meta : kvpair -> gval) (down : option lerr)
(** etcd: the pairs of the server in order of their keys, prefixOrKey, the limit if any, and an error,
    providers/etcd/etcd.go:169-205 *)
| SEtcd (o : nkopts) (pairs : list (gostring * gostring)) (byPrefix : bool) (limit : option nat) (down : option lerr).

(** pvdr: the field prefix (consul: position), the field storePrefix, the codec, and the closer if it is
    Watchable and Watch gives no error *)
Record pvdr := Pv { v_prefix : gostring; v_store : gostring; v_codec : option codec;
                    v_src : source; v_watch : option nat }.

(** GetPosition: env.go:203, flags.go:205, maps.go:68, file.go:115, fs.go:42, consul.go:266: prefix
    (position); etcd.go:217: storePrefix *)
Definition pv_GetPosition (v : pvdr) : gostring :=
  match v_src v with SEtcd _ _ _ _ _ => v_store v | _ => v_prefix v end.
(** WithPosition: env.go:205 and flags.go:207: storePrefix; maps.go:70, file.go:117, fs.go:44, consul.go:268:
    prefix (position); etcd.go:219: storePrefix *)
Definition pv_WithPosition (v : pvdr) (p : gostring) : pvdr :=
  match v_src v with
  | SNames _ | SEtcd _ _ _ _ _ => Pv (v_prefix v) p (v_codec v) (v_src v) (v_watch v)
  | _ => Pv p (v_store v) (v_codec v) (v_src v) (v_watch v)
  end.
(** WithCodec: the same line of all *)
Definition pv_WithCodec (v : pvdr) (c : codec) : pvdr := Pv (v_prefix v) (v_store v) (Some c) (v_src v) (v_watch v).

(** kv.List(position) of consul: the pairs whose key begins with it; Get: the pair of the key *)
Definition consul_List (ps : list kvpair) (p : gostring) : list kvpair := filter (fun x => has_prefix p (kv_key x)) ps.
Definition consul_Get (ps : list kvpair) (p : gostring) : option kvpair := find (fun x => str_eqb (kv_key x) p) ps.
(** Get of etcd, with WithPrefix and WithLimit or not *)
Definition etcd_Get (ps : list (gostring * gostring)) (byPrefix : bool) (limit : option nat) (p : gostring) :=
  if byPrefix then let l := filter (fun x => has_prefix p (fst x)) ps in
                   match limit with Some n => firstn n l | None => l end
  else filter (fun x => str_eqb (fst x) p) ps.

(** what the provider answers with its settings: Read and ReadBytes *)
Definition answers (v : pvdr) : res provider :=
  match v_src v with
  | SNames d | SMap d => Ok (Prov (Some d, None) None None (v_codec v) (v_watch v))
  | SBytes b e => Ok (Prov (None, Some ENotImpl) (Some (b, e)) None (v_codec v) (v_watch v))
  | SConsul o ps rec meta down =>
      do r <- match down with
              | Some e => Ok (Some [], Some e)
              | None => if rec then Ok (Some (consul_ReadAll o meta (consul_List ps (v_prefix v))), None)
                        else do d <- consul_ReadOne o meta (consul_Get ps (v_prefix v)); Ok (Some d, None)
              end;
      Ok (Prov r None None (v_codec v) (v_watch v))
  | SEtcd o ps bp lim down =>
      Ok (Prov match down with
               | Some e => (None, Some e)
               | None => (Some (etcd_Read o (etcd_Get ps bp lim (v_store v))), None)
               end None None (v_codec v) (v_watch v))
  end.

(** the options of Load, load.go:411-460; WithLoaderCopy, which only tells the loader, is left out *)
Inductive oopt :=
| OProvider (v : pvdr)
| OCodec (c : codec)
| OPosition (p : gostring)
| OStorePrefix (p : gostring)
| OFlat (b : bool)
| ONoWatch (b : bool).
(** Loader, load.go:400-409, with the receiver of Load beside the store in it as in Store.v *)
Record oloader := OL { ol_s : store; ol_recv : option store; ol_pv : option pvdr; ol_codec : option codec;
                       ol_pos : gostring; ol_nowatch : bool }.
Definition apply_oopt (l : oloader) (o : oopt) : oloader :=
  match o with
  | OProvider v => OL (ol_s l) (ol_recv l) (Some v) (ol_codec l) (ol_pos l) (ol_nowatch l)
  | OCodec c => OL (ol_s l) (ol_recv l) (ol_pv l) (Some c) (ol_pos l) (ol_nowatch l)
  | OPosition p => OL (ol_s l) (ol_recv l) (ol_pv l) (ol_codec l) p (ol_nowatch l)
  | OStorePrefix p =>
      OL (st_withPrefixReplaced (ol_s l) [p]) (Some match ol_recv l with Some r => r | None => ol_s l end)
         (ol_pv l) (ol_codec l) (ol_pos l) (ol_nowatch l)
  | OFlat b => OL (set_flat (ol_s l) b) (ol_recv l) (ol_pv l) (ol_codec l) (ol_pos l) (ol_nowatch l)
  | ONoWatch b => OL (ol_s l) (ol_recv l) (ol_pv l) (ol_codec l) (ol_pos l) b
  end.
(** newLoader, load.go:367-398 *)
Definition onewLoader (s : store) (os : list oopt) : oloader :=
  let l := fold_left apply_oopt os (OL s None None None [] false) in
  match ol_pv l with
  | None => l
  | Some v =>
      let '(v, c) := match ol_codec l with
                     | None => (v, v_codec v)
                     | Some c => (pv_WithCodec v c, Some c)
                     end in
      let '(v, p) := if is_nil (ol_pos l) then (v, pv_GetPosition v)
                     else (pv_WithPosition v (ol_pos l), ol_pos l) in
      OL (ol_s l) (ol_recv l) (Some v) c p (ol_nowatch l)
  end.

Section Load.
Variable str : gval -> gostring.
Variable json : codec.
(** Load, load.go:91-132, after newLoader (the body of Store.Load) *)
Definition load_by (ld : loader) (t : tr) : res lres :=
  let ls := ld_s ld in
  let back (ls : store) := set_loading match ld_recv ld with Some r => r | None => ls end false in
  do (t1, e1, data, bin, err) <- tryLoad json ls (ld_pv ld) (ld_codec ld) t;
  match err with
  | Some e => Ok (LRes (back ls) t1 None e1 (Some e))
  | None =>
      let prefix := hprefix (so_h ls) in
      do (t2, e2) <- match data with Some d => loadMapDedicated str ls true d prefix t1 | None => Ok (t1, []) end;
      do (t3, e3) <- match bin with Some m => loadMap str ls true [] m prefix t2 | None => Ok (t2, []) end;
      let ok := match data, bin with None, None => false | _, _ => true end in
      let ls' := if ok && negb (ld_nowatch ld) then startWatch ls (ld_pv ld) else ls in
      Ok (LRes (back ls') t3
               (if ok then Some (Ldr match ld_recv ld with Some _ => ls' | None => set_loading ls' false end (ld_recv ld) (ld_pv ld) (ld_codec ld) (ld_nowatch ld)) else None)
               (e1 ++ e2 ++ e3) None)
  end.
(** Load with all its options: the result, and the provider as Load leaves it *)
Definition oLoad (s : store) (t : tr) (os : list oopt) : res (lres * option pvdr) :=
  if so_loading s then Ok (LRes s t None [] None, None)
  else
    let l := onewLoader (set_loading s true) os in
    do pv <- match ol_pv l with None => Ok None | Some v => do p <- answers v; Ok (Some p) end;
    do r <- load_by (Ldr (ol_s l) (ol_recv l) pv (ol_codec l) (ol_nowatch l)) t;
    Ok (r, ol_pv l).
End Load.
