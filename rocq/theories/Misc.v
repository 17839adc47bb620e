(** Models of the small packages: op.go, internal/ctx/ctx.go, internal/cvt/cvt.go,
    internal/times/quote.go, codecs/gob/gob.go, the flattening of codecs/hcl/hcl.go and
    Store.RecursiveMode (store.go:485-488). *)
From Coq Require Import String.
From Coq Require Import List NArith ZArith Bool Arith.
From Verif Require Import GoStr Trie Cvter.
Import ListNotations.
Open Scope N_scope.
Open Scope list_scope.

(** ** op.go *)
(** op.go:55-83 *)
Definition OpNone : N := 0.
Definition OpCreate : N := 1.
Definition OpWrite : N := 2.
Definition OpRemove : N := 4.
Definition OpRename : N := 8.
Definition OpChmod : N := 16.
(** opStrings, op.go:12-19 *)
Definition opStrings : list (N * gostring) :=
  [(OpCreate, s2b "create"%string); (OpWrite, s2b "modify"%string); (OpRename, s2b "rename"%string);
   (OpRemove, s2b "remove"%string); (OpChmod, s2b "chmod"%string); (OpNone, s2b "none"%string)].
(** opStringsRev, op.go:21-32 *)
Definition opStringsRev : list (gostring * N) :=
  [(s2b "create"%string, OpCreate); (s2b "new"%string, OpCreate); (s2b "modify"%string, OpWrite);
   (s2b "write"%string, OpWrite); (s2b "rename"%string, OpRename); (s2b "remove"%string, OpRemove);
   (s2b "delete"%string, OpRemove); (s2b "rm"%string, OpRemove); (s2b "chmod"%string, OpChmod);
   (s2b "none"%string, OpNone)].
Fixpoint op_name (l : list (N * gostring)) (o : N) : option gostring :=
  match l with [] => None | (a, n) :: t => if a =? o then Some n else op_name t o end.
Fixpoint op_value (l : list (gostring * N)) (n : gostring) : option N :=
  match l with [] => None | (a, o) :: t => if str_eqb a n then Some o else op_value t n end.
(** strings.ToUpper and strings.ToLower of ASCII strings *)
Definition upperA (s : gostring) : gostring := map (fun c => if (97 <=? c) && (c <=? 122) then c - 32 else c) s.
Definition lowerA (s : gostring) : gostring := map (fun c => if (65 <=? c) && (c <=? 90) then c + 32 else c) s.
(** Op.UnmarshalText, op.go:34-42: the new value of the receiver, and whether there is no error *)
Definition UnmarshalText (old : N) (text : gostring) : N * bool :=
  match op_value opStringsRev text with Some o => (o, true) | None => (old, false) end.
(** Op.MarshalText, op.go:44-50; an unknown op prints the address of the receiver, [addr] *)
Definition MarshalText (addr : gostring) (o : N) : gostring :=
  match op_name opStrings o with
  | Some n => upperA n
  | None => s2b "Op("%string ++ addr ++ s2b ")"%string
  end.

(** ** Store.RecursiveMode, store.go:488: it calls itself *)
Fixpoint st_RecursiveMode (fuel : nat) (h : hdl) : res rmode :=
  match fuel with
  | O => Fuel
  | S f => st_RecursiveMode f h
  end.
(** the one of the trie, load.go:39 *)
Definition RecursiveMode (h : hdl) : rmode := hmode h.

(** ** internal/ctx/ctx.go *)
(** byte-wise comparison of strings *)
Fixpoint str_leb (a b : gostring) : bool :=
  match a, b with
  | [], _ => true
  | _ :: _, [] => false
  | x :: a', y :: b' => if x =? y then str_leb a' b' else x <? y
  end.
(** sort.Strings (by its contract: a sorted permutation) *)
Fixpoint ins_str (x : gostring) (l : list gostring) : list gostring :=
  match l with
  | [] => [x]
  | y :: t => if str_leb x y then x :: l else y :: ins_str x t
  end.
Fixpoint sort_strings (l : list gostring) : list gostring :=
  match l with [] => [] | x :: t => ins_str x (sort_strings t) end.

(** ctxS, ctx.go:59-63; [c_vals] in iteration order, [c_iter] is nil or a slice *)
Record ctx := Ctx { c_vals : gmap; c_iter : option (list gostring); c_picked : gostring }.
(** TODO, ctx.go:29 *)
Definition ctx_TODO : ctx := Ctx [] None [].
(** add, ctx.go:84-89 *)
Definition ctx_add (c : ctx) (name : gostring) (v : gval) : ctx := Ctx (mset (c_vals c) name v) (c_iter c) (c_picked c).
(** WithValues, ctx.go:65-80; [stringer v]: what String() of a fmt.Stringer returns *)
Fixpoint ctx_values (stringer : gval -> option gostring) (k : gostring) (args : list gval) (c : ctx) : ctx :=
  match args with
  | [] => c
  | t :: r =>
      if is_nil k then
        ctx_values stringer (match t with
                             | GStr z => z
                             | _ => match stringer t with Some z => z | None => k end
                             end) r c
      else ctx_values stringer [] r (ctx_add c k t)
  end.
Definition ctx_WithValues stringer args c := ctx_values stringer [] args c.
(** NamesCount, ValueBy: ctx.go:91-100 *)
Definition ctx_NamesCount (c : ctx) : nat := length (c_vals c).
Definition ctx_ValueBy (c : ctx) (name : gostring) : gval :=
  match mget (c_vals c) name with Some v => v | None => GNil end.
(** Reset, ctx.go:118-120 *)
Definition ctx_Reset (c : ctx) : ctx := Ctx (c_vals c) None [].
(** Next, ctx.go:122-135 *)
Definition ctx_Next (c : ctx) : ctx * bool :=
  let it := match c_iter c with Some i => i | None => sort_strings (map fst (c_vals c)) end in
  match it with
  | k :: r => (Ctx (c_vals c) (Some r) k, true)
  | [] => (Ctx (c_vals c) (Some []) (c_picked c), false)
  end.
(** NextName, ctx.go:102-114 *)
Definition ctx_NextName (c : ctx) : ctx * gostring :=
  let it := match c_iter c with Some i => i | None => sort_strings (map fst (c_vals c)) end in
  match it with
  | k :: r => (Ctx (c_vals c) (Some r) (c_picked c), k)
  | [] => (Ctx (c_vals c) (Some []) (c_picked c), [])
  end.
(** Entry, Key, Value: ctx.go:137-156 *)
Definition ctx_Entry (c : ctx) : gostring * gval :=
  match mget (c_vals c) (c_picked c) with Some v => (c_picked c, v) | None => ([], GNil) end.

(** ** internal/cvt/cvt.go *)
(** the inner loop of Deflate, cvt.go:82-95: a value that is no map on the way is not entered, the
    walk goes on in the same map.  Maps that are values of the input are changed in place by the
    code; that change of the input is not modelled. *)
Fixpoint dput (m : gmap) (keys : list gostring) (v : gval) : gmap :=
  match keys with
  | [] => m
  | k :: rest =>
      match rest with
      | [] => mset m k v
      | _ => match mget m k with
             | Some (GMap cm) => mset m k (GMap (dput cm rest v))
             | Some _ => dput m rest v
             | None => mset m k (GMap (dput [] rest v))
             end
      end
  end.
(** Deflate, cvt.go:69-98, for a non-empty delimiter *)
Definition Deflate (m : gmap) (delim : gostring) : gmap :=
  fold_left (fun acc e => dput acc (split_str (fst e) delim) (snd e)) m [].

(** normalize, cvt.go:26-66, without the worker; [sprint] is fmt.Sprintf("%v", k).  What is assigned
    to m[key], or left there. *)
Section Normalize.
Variable sprint : gval -> gostring.
Fixpoint normalize (v : gval) : gval :=
  match v with
  | GAMap z => GMap (fold_left (fun x e => mset x (fst e) (snd e))
                               (map (fun e => (sprint (fst e), normalize (snd e))) z) [])
  | GList l => GList (map (fun x => match x with
                                    | GAMap _ | GMap _ => normalize x
                                    | _ => x
                                    end) l)
  | GMap m => GMap (map (fun e => (fst e, normalize (snd e))) m)
  | _ => v
  end.
Definition Normalize (m : gmap) : gmap := map (fun e => (fst e, normalize (snd e))) m.
End Normalize.

(** ** flattenHCL, codecs/hcl/hcl.go:200-214 *)
Fixpoint hclVal (v : gval) : gval :=
  match v with
  | GMaps [m] => GMap (map (fun e => (fst e, hclVal (snd e))) m)
  | GMap m => GMap (map (fun e => (fst e, hclVal (snd e))) m)
  | _ => v
  end.
Definition flattenHCL (m : gmap) : gmap := map (fun e => (fst e, hclVal (snd e))) m.

(** ** codecs/gob/gob.go: [enc m] is what the encoder writes, [decode b] what the decoder makes of the
    unread rest of its reader and what then is left to read *)
Section Gob.
Variable enc : gmap -> gostring.
Variable decode : gostring -> (option gmap) * gostring.
(** ldr, gob.go:20-23: the unread rest of the decoder's reader; what the encoder's buffer holds *)
Record gobS := GobS { g_dec : option gostring; g_enc : option gostring }.
(** Unmarshal, gob.go:26-33 *)
Definition gob_Unmarshal (p : gobS) (b : gostring) : gobS * option gmap :=
  let r := match g_dec p with Some r => r | None => b end in
  let (m, rest) := decode r in (GobS (Some rest) (g_enc p), m).
(** Marshal, gob.go:36-43: [data] is never assigned *)
Definition gob_Marshal (p : gobS) (m : gmap) : gobS * gostring :=
  let sb := match g_enc p with Some sb => sb | None => [] end in
  (GobS (g_dec p) (Some (sb ++ enc m)), []).
End Gob.

(** ** quote, internal/times/quote.go:3-38 *)
(** one decoded rune and its width, as the range loop sees it *)
Definition dec1 (s : gostring) : rune * nat :=
  match s with
  | [] => (0, 0%nat)
  | b0 :: t =>
      if b0 <? 0x80 then (b0, 1%nat)
      else
        let bad := (RuneError, 1%nat) in
        if (0xC2 <=? b0) && (b0 <=? 0xDF) then
          match t with
          | b1 :: _ => if is_cont b1 then ((b0 - 0xC0) * 64 + (b1 - 0x80), 2%nat) else bad
          | _ => bad
          end
        else if (0xE0 <=? b0) && (b0 <=? 0xEF) then
          match t with
          | b1 :: b2 :: _ => if ok3 b0 b1 && is_cont b2
                             then ((b0 - 0xE0) * 4096 + (b1 - 0x80) * 64 + (b2 - 0x80), 3%nat) else bad
          | _ => bad
          end
        else if (0xF0 <=? b0) && (b0 <=? 0xF4) then
          match t with
          | b1 :: b2 :: b3 :: _ =>
              if ok4 b0 b1 && is_cont b2 && is_cont b3
              then ((b0 - 0xF0) * 262144 + (b1 - 0x80) * 4096 + (b2 - 0x80) * 64 + (b3 - 0x80), 4%nat) else bad
          | _ => bad
          end
        else bad
  end.
Definition lowerhex : gostring := s2b "0123456789abcdef"%string.
Definition hex1 (n : N) : N := nth (N.to_nat n) lowerhex 0.
(** the escape of one byte, quote.go:24-26 *)
Definition hexesc (b : N) : gostring := [92; 120; hex1 (b / 16); hex1 (b mod 16)].
Definition qch : N := 34.
Definition bsl : N := 92.
(** the loop, quote.go:6-35; [skip] bytes of the rune just handled are still to be passed *)
Fixpoint quote_go (skip : nat) (s : gostring) : res gostring :=
  match s with
  | [] => Ok []
  | b :: t =>
      match skip with
      | S k => quote_go k t
      | O =>
          let (c, w) := dec1 s in
          do here <-
            (if (0x80 <=? c) || (c <? 32) then
               let width := if c =? RuneError
                            then if (2 <? length s)%nat && str_eqb (firstn 3 s) (enc1 RuneError) then 3%nat else 1%nat
                            else length (enc1 c) in
               if (width <=? length s)%nat then Ok (flat_map hexesc (firstn width s)) else Panic
             else Ok ((if (c =? qch) || (c =? bsl) then [bsl] else []) ++ enc1 c));
          do rest <- quote_go (pred w) t;
          Ok (here ++ rest)
      end
  end.
Definition quote (s : gostring) : res gostring :=
  do body <- quote_go 0 s; Ok ([qch] ++ body ++ [qch]).
