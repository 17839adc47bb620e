(** Model of /repo/radix/cvter.go: exports (GetR, GetM, To), typed getters, size strings. *)
From Coq Require Import String.
From Coq Require Import List NArith ZArith Bool Arith Lia.
From Verif Require Import GoStr Node Trie Dur.
Import ListNotations.
Open Scope nat_scope.
Open Scope list_scope.

(** ** map[string]any *)
(** An assignment m[k] = v keeps the place of an existing key; the place has no meaning. *)
Definition gmap := list (gostring * gval).
Fixpoint mget (m : gmap) (k : gostring) : option gval :=
  match m with
  | [] => None
  | (k', v) :: t => if str_eqb k' k then Some v else mget t k
  end.
Fixpoint mset (m : gmap) (k : gostring) (v : gval) : gmap :=
  match m with
  | [] => [(k, v)]
  | (k', v') :: t => if str_eqb k' k then (k, v) :: t else (k', v') :: mset t k v
  end.

(** simpleEndsWith, trie.go:826-832 *)
Definition simpleEndsWith (s : gostring) (d : rune) : bool :=
  match rev (runes s) with [] => false | c :: _ => (c =? d)%N end.

(** the test in all four walks, cvter.go:358, 370, 428, 462.  In two of them it starts with
    [path == "" ||], which changes nothing because simpleEndsWith("", d) is false. *)
Definition exported (d : rune) (n : node) : bool :=
  negb (simpleEndsWith (key n) d) && negb (isBranch n).

(** path == "" || path == "." || path == "(root)", cvter.go:348, 417 *)
Definition is_root_path (path : gostring) : bool :=
  is_nil path || str_eqb path (s2b "."%string) || str_eqb path (s2b "(root)"%string).

Definition last_default {A} (zero : A) (defs : list A) : A := last defs zero.

Section WithFuel.
Variable rf : nat.

(** the assignments ret[path] = node.Data() of a walk *)
Definition put_walk (d : rune) (ns : list node) : gmap :=
  fold_left (fun m n => if exported d n then mset m (key n) (ndata n) else m) ns [].

(** GetR, cvter.go:342-402.  None is the nil map; err is always nil. *)
Definition GetR (h : hdl) (t : tr) (path : gostring) (defs : list (option gmap)) : res (option gmap) :=
  if is_root_path path then Ok (Some (put_walk (hdelim h) (walk (root t))))
  else
    do (n, _, partial, found, _) <- Locate rf h t path;
    if found || partial then
      match n with
      | Some n => Ok (Some (put_walk (hdelim h) (walk n)))
      | None => Panic            (* nodeX is nil: nodeX.walk reads s.pathS *)
      end
    else Ok (last_default None defs).

(** ** GetM *)
(** the options, cvter.go:598-630 *)
Record mopts := MOpts { o_keep : bool; o_noflat : bool; o_filter : option (node -> bool) }.
Definition no_opts : mopts := MOpts false false None.
Definition passes (o : mopts) (n : node) : bool :=
  match o_filter o with Some f => f n | None => true end.

(** putKeys, cvter.go:652-673.  A map value found on the way is changed in place by the code;
    if it is the data of a node the node sees the change, which is not modelled. *)
Fixpoint putKeys (m : gmap) (keys : list gostring) (v : gval) : gmap :=
  match keys with
  | [] => m
  | k :: rest =>
      match rest with
      | [] => mset m k v
      | _ => match mget m k with
             | Some (GMap cm) => mset m k (GMap (putKeys cm rest v))
             | Some _ => m
             | None => mset m k (GMap (putKeys [] rest v))
             end
      end
  end.
(** put, cvter.go:632-650; [pre] is s.prefix *)
Definition put (keep : bool) (pre : list gostring) (m : gmap) (prefix delim : gostring) (v : gval) : gmap :=
  let keys := split_str prefix delim in
  if keep then putKeys m keys v
  else if length pre <=? length keys then
    let kk := skipn (length pre) keys in
    if is_nil kk then putKeys m (skipn (length pre - 1) keys) v else putKeys m kk v
  else putKeys m keys v.

(** strings.ContainsRune; an invalid rune is never found *)
Definition containsRune (s : gostring) (r : rune) : bool := is_scalar r && contains (enc1 r) s.

(** submap, cvter.go:504-523, stores the new sub-map after filling it: the result is that of putKeys *)
Definition submap (m : gmap) (keys : list gostring) (v : gval) : gmap := putKeys m keys v.
(** splitCompactKeys, cvter.go:491-502; [m] in iteration order *)
Definition splitCompactKeys (d : rune) (m : gmap) : gmap :=
  fold_left (fun out e => if containsRune (fst e) d then submap out (split_str (fst e) (enc1 d)) (snd e)
                          else mset out (fst e) (snd e)) m [].

(** s[i:] *)
Definition slice_from {A} (i : nat) (l : list A) : res (list A) :=
  if i <=? length l then Ok (skipn i l) else Panic.

(** one callback of the walk in GetM(""), cvter.go:427-440; [pre1] is prelen+1, that is
    0 without a prefix and len(prefix)+2 with one *)
Definition getM_root_cb (d : rune) (o : mopts) (pre1 : nat) (m : gmap) (n : node) : res gmap :=
  if exported d n && passes o n then
    if o_keep o then Ok (mset m (key n) (ndata n))
    else if pre1 <=? S (length (key n)) then
      do k <- slice_from pre1 (key n); Ok (mset m k (ndata n))
    else Ok m
  else Ok m.
(** one callback of the walk in GetM(path), cvter.go:461-477; [prelen] is that of getM_prelen *)
Definition getM_cb (d : rune) (o : mopts) (pre : list gostring) (prelen : nat) (m : gmap) (n : node) : res gmap :=
  if exported d n && passes o n then
    if o_keep o then Ok (put true pre m (key n) (enc1 d) (ndata n))
    else if prelen + 1 =? length (key n) then
      Ok (put false pre m (of_runes (npath n)) (enc1 d) (ndata n))
    else if prelen <? length (key n) then
      do k <- slice_from (prelen + 1) (key n);
      Ok (put false pre m k (enc1 d) (ndata n))
    else Ok m
  else Ok m.
Fixpoint foldM {A B} (f : B -> A -> res B) (l : list A) (b : B) : res B :=
  match l with
  | [] => Ok b
  | a :: l' => do b' <- f b a; foldM f l' b'
  end.
(** prelen, cvter.go:454-459: -1, or len(prefix)+1, plus len(path) *)
Definition getM_prelen (h : hdl) (path : gostring) : nat :=
  if is_nil (hprefix h) then length path - 1 else length (hprefix h) + 1 + length path.

(** GetM, cvter.go:411-484.  [order]: the iteration order of the Go map handed to
    splitCompactKeys, some permutation of its argument. *)
Definition GetM (order : gmap -> gmap) (h : hdl) (t : tr) (path : gostring) (o : mopts) : res (option gmap) :=
  let d := hdelim h in
  let fin m := Some (if o_noflat o then splitCompactKeys d (order m) else m) in
  if is_root_path path then
    let pre1 := if is_nil (hprefix h) then 0 else length (hprefix h) + 2 in
    do m <- foldM (getM_root_cb d o pre1) (walk (root t)) [];
    Ok (fin m)
  else
    do (n, _, partial, found, _) <- Locate rf h t path;
    if found || partial then
      match n with
      | Some n =>
          let pre := split_str (Join d [hprefix h; path]) (enc1 d) in
          do m <- foldM (getM_cb d o pre (getM_prelen h path)) (walk n) [];
          Ok (fin m)
      | None => Panic
      end
    else Ok None.

(** To / GetSectionFrom, cvter.go:551-574: the map handed to evendeep (None: nothing is copied) *)
Definition To (order : gmap -> gmap) (h : hdl) (t : tr) (path : gostring) (o : mopts) : res (option gmap) :=
  do r <- GetM order h t path o;
  match r with
  | Some m => Ok (Some (splitCompactKeys (hdelim h) (order m)))
  | None =>
      do r2 <- GetR h t path [];
      Ok (match r2 with Some m => Some (splitCompactKeys (hdelim h) (order m)) | None => None end)
  end.

(** ** typed getters *)
(** GetString, GetInt, ... , GetTime and the maps, cvter.go:677-691 and alike: [conv] is the
    evendeep converter (with the final Go conversion); the second result is err == nil *)
Definition GetX {A} (conv : gval -> A) (zero : A) (h : hdl) (t : tr) (path : gostring) (defs : list A)
  : res (A * bool) :=
  do q <- Query rf h t path;
  Ok (if q_found q then conv (q_data q) else last_default zero defs, q_found q).
Definition MustX {A} (conv : gval -> A) (zero : A) (h : hdl) (t : tr) (path : gostring) (defs : list A) : res A :=
  do q <- Query rf h t path;
  Ok (if q_found q then conv (q_data q) else last_default zero defs).
(** the ...Slice getters, cvter.go:705-725 and alike: the default is the list of defaults *)
Definition GetXs {A} (conv : gval -> list A) (h : hdl) (t : tr) (path : gostring) (defs : list A)
  : res (list A * bool) :=
  do q <- Query rf h t path;
  Ok (if q_found q then conv (q_data q) else defs, q_found q).

(** ** size strings *)
Open Scope N_scope.

(** the UTF-8 encodings of unicode.IsSpace *)
Definition spaces : list gostring :=
  map enc1 ([9; 10; 11; 12; 13; 32; 0x85; 0xA0; 0x1680; 0x2028; 0x2029; 0x202F; 0x205F; 0x3000]
            ++ map N.of_nat (seq 0x2000 11)).
Definition drop_one (l : list gostring) (s : gostring) : option gostring :=
  match filter (fun p => has_prefix p s) l with
  | p :: _ => Some (skipn (length p) s)
  | [] => None
  end.
Fixpoint trim_left (fuel : nat) (l : list gostring) (s : gostring) : gostring :=
  match fuel with
  | O => s
  | S f => match drop_one l s with Some s' => trim_left f l s' | None => s end
  end.
(** strings.TrimSpace: the last rune is a space exactly if the string ends with its encoding *)
Definition TrimSpace (s : gostring) : gostring :=
  let s1 := trim_left (length s) spaces s in
  rev (trim_left (length s1) (map (@rev N) spaces) (rev s1)).
(** strings.TrimRight with ASCII characters, strings.TrimRightFunc likewise *)
Fixpoint drop_while (p : N -> bool) (s : list N) : list N :=
  match s with c :: t => if p c then drop_while p t else s | [] => [] end.
Definition mem (c : N) (s : gostring) : bool := existsb (N.eqb c) s.
Definition TrimRight (s : gostring) (cut : gostring) : gostring := rev (drop_while (fun c => mem c cut) (rev s)).

(** strconv.ParseUint(s, 0, 64) of the Go library: the value and err == nil.  A syntax error
    gives 0, a range error the largest uint64. *)
Definition lower (c : N) : N := N.lor c 32.
Definition maxu64 : N := two64 - 1.
Definition digit_of (c : N) : option N :=
  if is_digit c then Some (c - 48)
  else if (97 <=? lower c) && (lower c <=? 122) then Some (lower c - 97 + 10)
  else None.
Inductive pu := PNum (n : N) | PSyntax | PRange.
Fixpoint pu_go (base : N) (s : gostring) (n : N) : pu :=
  match s with
  | [] => PNum n
  | c :: t =>
      if c =? 95 then pu_go base t n
      else match digit_of c with
           | None => PSyntax
           | Some d =>
               if base <=? d then PSyntax
               else if maxu64 / base + 1 <=? n then PRange
               else if maxu64 <? n * base + d then PRange
               else pu_go base t (n * base + d)
           end
  end.
(** underscoreOK of strconv; [i] is the kind of the last character: 0 start, 1 digit, 2 underscore, 3 other *)
Fixpoint us_go (hex : bool) (s : gostring) (i : N) : bool :=
  match s with
  | [] => negb (i =? 2)
  | c :: t =>
      if is_digit c || (hex && ((97 <=? lower c) && (lower c <=? 102))) then us_go hex t 1
      else if c =? 95 then if i =? 1 then us_go hex t 2 else false
      else if i =? 2 then false
      else us_go hex t 3
  end.
Definition underscoreOK (s : gostring) : bool :=
  let s := match s with c :: t => if (c =? 45) || (c =? 43) then t else s | [] => s end in
  match s with
  | z :: x :: t =>
      if (z =? 48) && ((lower x =? 98) || (lower x =? 111) || (lower x =? 120))
      then us_go (lower x =? 120) t 1
      else us_go false s 0
  | _ => us_go false s 0
  end.
Definition base_of (s : gostring) : N * gostring :=
  match s with
  | z :: t =>
      if z =? 48 then
        match t with
        | x :: (_ :: _) as t' =>
            if lower x =? 98 then (2, tl t) else if lower x =? 111 then (8, tl t)
            else if lower x =? 120 then (16, tl t) else (8, t)
        | _ => (8, t)
        end
      else (10, s)
  | [] => (10, s)
  end.
Definition ParseUint (s : gostring) : N * bool :=
  if is_nil s then (0, false)
  else
    let '(base, digits) := base_of s in
    match pu_go base digits 0 with
    | PSyntax => (0, false)
    | PRange => (maxu64, false)
    | PNum n => if mem 95 digits && negb (underscoreOK s) then (0, false) else (n, true)
    end.

(** fromKibiBytes, cvter.go:1567-1588, and fromKilobytes, cvter.go:1653-1674 *)
Definition sizeTimes (unit : N) (r : rune) : N :=
  let is c := r =? c in
  if is 107 || is 75 then unit
  else if is 109 || is 77 then unit * unit
  else if is 103 || is 71 then unit * unit * unit
  else if is 116 || is 84 then unit * unit * unit * unit
  else if is 112 || is 80 then unit * unit * unit * unit * unit
  else if is 101 || is 69 then unit * unit * unit * unit * unit * unit
  else 1.
Definition suffixes : gostring := s2b "kmgtpezyKMGTPEZY"%string.
(** [[]rune(sz)[len(sz)-1]]: the rune at the index of the last byte *)
Definition last_rune (sz : gostring) : res rune :=
  match nth_error (runes sz) (pred (length sz)) with Some r => Ok r | None => Panic end.

(** strconv.ParseFloat is an external oracle; uint64(f) of a value out of range, which the
    language leaves open, is 0 *)
Variable ParseFloat : gostring -> option f64.
(** FromKibiBytes, cvter.go:1541-1565, and FromKiloBytes, cvter.go:1627-1651 *)
Definition fromBytes (unit : N) (cut1 cut2 : gostring) (sz : gostring) : res N :=
  let sz := TrimRight (TrimRight (TrimSpace sz) cut1) cut2 in
  let szr := TrimSpace (TrimRight sz suffixes) in
  if mem 46 szr then
    match ParseFloat szr with
    | Some f => do r <- last_rune sz; Ok (u64_of (fmul f (f64_of (sizeTimes unit r))))
    | None => Ok 0
    end
  else
    let '(n, ok) := ParseUint szr in
    if ok : bool then do r <- last_rune sz; Ok (u64 (n * sizeTimes unit r)) else Ok n.
Definition FromKibiBytes (sz : gostring) : res N := fromBytes 1024 (s2b "iB"%string) (s2b "ib"%string) sz.
Definition FromKiloBytes (sz : gostring) : res N := fromBytes 1000 (s2b "B"%string) (s2b "b"%string) sz.

(** GetKibiBytes, cvter.go:1522-1533, and GetKiloBytes, cvter.go:1608-1619: value and err == nil;
    [str] is converter.String *)
Definition getBytes (from : gostring -> res N) (str : gval -> gostring) (h : hdl) (t : tr) (key : gostring)
    (defs : list N) : res (N * bool) :=
  do (sz, ok) <- GetX str [] h t key [[]];
  if is_nil sz || negb ok then Ok (last_default 0 defs, ok)
  else do n <- from sz; Ok (n, ok).
Definition GetKibiBytes := getBytes FromKibiBytes.
Definition GetKiloBytes := getBytes FromKiloBytes.
End WithFuel.
