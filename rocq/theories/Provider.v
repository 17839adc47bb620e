(** Models of the providers: providers/env/env.go, providers/flags/flags.go, the key mapping and the
    changes of providers/consul and providers/etcd, the watch loop of providers/file/file.go and
    providers/maps/maps.go. *)
From Coq Require Import String.
From Coq Require Import List NArith ZArith Bool Arith.
From Verif Require Import GoStr Trie Cvter Misc.
Import ListNotations.
Open Scope N_scope.
Open Scope list_scope.

(** ** providers/env/env.go *)
(** strings.Index(p, "=") and the two slices, env.go:111-113 *)
Fixpoint cut_eq (p : gostring) : option (gostring * gostring) :=
  match p with
  | [] => None
  | c :: t => if c =? 61 then Some ([], t)
              else match cut_eq t with Some (a, b) => Some (c :: a, b) | None => None end
  end.
(** strings.TrimPrefix *)
Definition trim_prefix (s p : gostring) : gostring := if has_prefix p s then skipn (length p) s else s.
(** re.ReplaceAllString(k, "$1.$2") for the expression of env.go:106 (a run without
    underlines, an underline, one more that is none), env.go:126: a match ends
    with the first underline that is followed by something else; the two groups are copied *)
Fixpoint re_u2d (k : gostring) : gostring :=
  match k with
  | [] => []
  | c :: t => (if c =? 95 then match t with
                               | x :: _ => if x =? 95 then c else 46
                               | [] => c
                               end
               else c) :: re_u2d t
  end.
(** k[:1] + ..., env.go:126: panics for the empty string *)
Definition u2d (k : gostring) : res gostring :=
  match k with [] => Panic | c :: t => Ok (c :: re_u2d t) end.

Section Env.
(** strings.ToUpper and strings.ToLower *)
Variable upper lower : gostring -> gostring.
(** pvdr, env.go:21-35: the settings *)
Record envopts := EnvO { e_prefix : gostring; e_strip : gostring; e_store : gostring;
                         e_cb : option (gostring -> gostring); e_lower : bool; e_u2d : bool }.
(** New without options, env.go:13 *)
Definition env_default : envopts := EnvO [] [] [] None true false.
(** WithPrefix, env.go:51-58 *)
Definition env_WithPrefix (p : gostring) (strips : list gostring) (o : envopts) : envopts :=
  EnvO (upper p) (fold_left (fun _ s => s) strips (e_strip o)) (e_store o) (e_cb o) (e_lower o) (e_u2d o).
(** the key of a name, env.go:119-133 *)
Definition env_key (o : envopts) (k : gostring) : res gostring :=
  let k := if e_lower o then lower k else k in
  let k := if is_nil (e_strip o) then k else trim_prefix k (e_strip o) in
  do k <- (if e_u2d o then u2d k else Ok k);
  let k := match e_cb o with Some f => f k | None => k end in
  Ok (if is_nil (e_store o) then k else e_store o ++ s2b "."%string ++ k).
(** which entries are taken, env.go:111-118 *)
Definition env_entry (o : envopts) (p : gostring) : option (gostring * gostring) :=
  match cut_eq p with
  | Some ([], _) | None => None
  | Some (k, v) => if negb (is_nil (e_prefix o)) && negb (has_prefix (e_prefix o) k) then None else Some (k, v)
  end.
(** the state: s.m and s.keys and s.pos *)
Record envS := EnvS { e_m : gmap; e_keys : list gostring; e_pos : nat }.
Fixpoint env_loop (o : envopts) (vec : list gostring) (m : gmap) (keys : list gostring) : res envS :=
  match vec with
  | [] => Ok (EnvS m (sort_strings keys) 0)
  | p :: r =>
      match env_entry o p with
      | None => env_loop o r m keys
      | Some (k, v) => do k' <- env_key o k; env_loop o r (mset m k' (GStr v)) (keys ++ [k'])
      end
  end.
(** prepare, env.go:105-141; [vec] is os.Environ() *)
Definition env_prepare (o : envopts) (vec : list gostring) : res envS := env_loop o vec [] [].
(** prepare of flags.go:92-135: the flags (name, value), in the order of VisitAll *)
Fixpoint flags_loop (o : envopts) (vec : list (gostring * gval)) (m : gmap) (keys : list gostring) : res envS :=
  match vec with
  | [] => Ok (EnvS m (sort_strings keys) 0)
  | (k, v) :: r =>
      if negb (is_nil (e_prefix o)) && negb (has_prefix (e_prefix o) k) then flags_loop o r m keys
      else do k' <- env_key o k; flags_loop o r (mset m k' v) (keys ++ [k'])
  end.
Definition flags_prepare (o : envopts) (vec : list (gostring * gval)) : res envS := flags_loop o vec [] [].
End Env.
(** Count, Has, Keys, Value, Read: env.go:143-190 *)
Definition env_Count (s : envS) : nat := length (e_keys s).
Definition env_Has (s : envS) (k : gostring) : bool := match mget (e_m s) k with Some _ => true | None => false end.
Definition env_Value (s : envS) (k : gostring) : option gval := mget (e_m s) k.
(** Next, env.go:152-158: the state, the key and eol *)
Definition env_Next (s : envS) : res (envS * gostring * bool) :=
  if (e_pos s <? length (e_keys s))%nat then Ok (s, [], true)
  else match nth_error (e_keys s) (e_pos s) with
       | Some k => Ok (EnvS (e_m s) (e_keys s) (S (e_pos s)), k, false)
       | None => Panic
       end.

(** ** NormalizeKey, consul.go:242-253 and etcd.go:156-167 (the same code) *)
Definition slash : gostring := [47].
(** strings.ReplaceAll(key, "/", d) *)
Definition replace_slash (d : gostring) (key : gostring) : gostring :=
  flat_map (fun c => if c =? 47 then d else [c]) key.
Record nkopts := NkO { n_strip : gostring; n_prepend : gostring; n_delim : gostring }.
Definition NormalizeKey (o : nkopts) (key : gostring) : gostring :=
  let key := if is_nil (n_strip o) then key else trim_prefix key (n_strip o ++ slash) in
  let key := if is_nil (n_prepend o) then key else n_prepend o ++ n_delim o ++ key in
  if is_nil (n_delim o) then key else replace_slash (n_delim o) key.

(** ** providers/consul/change.go *)
(** api.KVPair, the fields that are used *)
Record kvpair := KV { kv_key : gostring; kv_val : gostring; kv_create : N; kv_modify : N }.
(** what the watch handler gets: pairs, a pair, or nil *)
Inductive cval := CVNil | CVPairs (l : list kvpair) | CVPair (p : kvpair).
(** changeS, change.go:12-23 *)
Record chg := Chg { ch_val : cval; ch_idx : nat; ch_index : N; ch_op : N }.
Definition chg0 : chg := Chg CVNil 0 0 OpNone.
(** checkOpIndex, change.go:115-124: the new lastOp, if any *)
Definition checkOp (index : N) (p : kvpair) : option N :=
  if kv_create p =? index then Some OpCreate
  else if kv_modify p =? index then Some OpWrite else None.
(** the first pair that passes *)
Fixpoint firstOp (index : N) (l : list kvpair) : option N :=
  match l with [] => None | p :: r => match checkOp index p with Some o => Some o | None => firstOp index r end end.
Definition kv_removed (old new : list kvpair) : list kvpair :=
  filter (fun p => negb (existsb (fun q => str_eqb (kv_key p) (kv_key q)) new)) old.
(** Set and findOpIndex, change.go:61-113: the state for the callback, and the one after the deferred
    function ran.  s.val.(api.KVPairs) panics if s.val is a single pair. *)
Definition chg_Set (recursive : bool) (s : chg) (val : cval) (idx : N) : res (chg * (chg -> chg)) :=
  if recursive then
    match val with
    | CVPairs pairs =>
        match firstOp idx pairs with
        | Some o => Ok (Chg val 0 idx o, fun c => c)
        | None =>
            match ch_val s with
            | CVPair _ => Panic
            | CVNil => Ok (Chg (CVPairs []) 0 idx OpRemove, fun c => Chg val (ch_idx c) (ch_index c) (ch_op c))
            | CVPairs old => Ok (Chg (CVPairs (kv_removed old pairs)) 0 idx OpRemove,
                                 fun c => Chg val (ch_idx c) (ch_index c) (ch_op c))
            end
        end
    | _ => Ok (Chg (ch_val s) 0 idx (ch_op s), fun c => c)
    end
  else
    match val with
    | CVPair p =>
        match checkOp idx p with
        | Some o => Ok (Chg val 0 idx o, fun c => c)
        | None => Ok (Chg (ch_val s) 0 idx OpRemove, fun c => Chg val (ch_idx c) (ch_index c) (ch_op c))
        end
    | _ => Ok (Chg (ch_val s) 0 idx (ch_op s), fun c => c)
    end.
(** Next, change.go:33-59: the retries walk over the pairs that do not pass *)
Fixpoint chg_scan (index op : N) (i : nat) (l : list kvpair) : nat * N * option kvpair :=
  match l with
  | [] => (i, op, None)
  | p :: r =>
      if op =? OpRemove then (S i, op, Some p)
      else match checkOp index p with
           | Some o => (S i, o, Some p)
           | None => chg_scan index op (S i) r
           end
  end.
Definition chg_Next (recursive : bool) (s : chg) : chg * option kvpair :=
  if recursive then
    match ch_val s with
    | CVPairs l =>
        let '(i, op, r) := chg_scan (ch_index s) (ch_op s) (ch_idx s) (skipn (ch_idx s) l) in
        (Chg (ch_val s) i (ch_index s) op, r)
    | _ => (s, None)
    end
  else
    match ch_val s with
    | CVPair p =>
        if (ch_idx s =? 0)%nat then
          match checkOp (ch_index s) p with
          | Some o => (Chg (ch_val s) 1 (ch_index s) o, Some p)
          | None => (Chg (ch_val s) 1 (ch_index s) (ch_op s), None)
          end
        else (s, None)
    | _ => (s, None)
    end.
(** the loop of applyChanges, load.go:324-359: Next until it fails, at most [fuel] times *)
Fixpoint chg_drain (recursive : bool) (fuel : nat) (s : chg) : chg * list kvpair :=
  match fuel with
  | O => (s, [])
  | S f => let (s1, r) := chg_Next recursive s in
           match r with
           | None => (s1, [])
           | Some p => let (s2, ps) := chg_drain recursive f s1 in (s2, p :: ps)
           end
  end.
(** one call of the handler, consul.go:300-303: the op seen by applyChanges and the pairs *)
Definition consul_event (recursive : bool) (s : chg) (val : cval) (idx : N) : res (chg * N * list kvpair) :=
  do (s1, df) <- chg_Set recursive s val idx;
  let n := match ch_val s1 with CVPairs l => length l | CVPair _ => 1%nat | CVNil => 0%nat end in
  let (s2, ps) := chg_drain recursive (S n) s1 in
  Ok (df s2, ch_op s1, ps).

(** ** providers/etcd/change.go *)
Record eev := EEv { ee_put : bool; ee_key : gostring; ee_val : gostring; ee_create : N; ee_mod : N }.
(** Set, change.go:38-52; IsCreate and IsModify of the client: a put whose create revision is, or is
    not, its modification revision *)
Definition etcd_op (e : eev) : N :=
  N.lor (N.lor (if ee_put e && (ee_create e =? ee_mod e) then OpCreate else 0)
               (if ee_put e && negb (ee_create e =? ee_mod e) then OpWrite else 0))
        (if negb (ee_put e) && negb (ee_create e =? ee_mod e) then OpRemove else 0).
(** Has, change.go:25 *)
Definition has_op (last op : N) : bool := negb (N.land last op =? 0).
(** Next, change.go:28-37: (idx, result) *)
Definition etcd_Next (o : nkopts) (e : eev) (idx : nat) : nat * option (gostring * gval) :=
  match idx with
  | O => (1%nat, Some (NormalizeKey o (ee_key e), GStr (ee_val e)))
  | _ => (idx, None)
  end.

(** ** the watch loop of providers/file/file.go:153-233 *)
(** an event of fsnotify: its time in ms, its text, whether it is on the watched file, its flags; whether
    resolving the file works *)
Record fev := FEv { f_at : N; f_text : gostring; f_mine : bool; f_remove : bool; f_wc : bool; f_eval : bool }.
Inductive fmsg := FEvent (e : fev) | FClosed | FError.
(** what the callback sees *)
Inductive fcall := FcChange | FcError.
Fixpoint file_loop (last : gostring) (lastAt : N) (q : list fmsg) : list fcall :=
  match q with
  | [] => []
  | FClosed :: _ => [FcError]
  | FError :: _ => [FcError]
  | FEvent e :: r =>
      if str_eqb (f_text e) last && (f_at e <? lastAt + 5) then file_loop last lastAt r
      else
        let last := f_text e in let lastAt := f_at e in
        if negb (f_mine e) then file_loop last lastAt r
        else if f_remove e then [FcError]
        else if negb (f_eval e) then [FcError]
        else if negb (f_wc e) then file_loop last lastAt r
        else FcChange :: file_loop last lastAt r
  end.

(** ** providers/maps/maps.go:14-37; the deep copy is the identity on values *)
Definition maps_New (sprint : gval -> gostring) (m : gmap) (delim : gostring) : gmap :=
  let cp := Normalize sprint m in
  if is_nil delim then cp else Deflate cp delim.
