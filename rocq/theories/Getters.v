(** The integer getters with their final Go conversions, and internal/times/time.go. *)
From Coq Require Import List NArith ZArith Bool.
From Verif Require Import GoStr Trie Cvter.
Import ListNotations.
Open Scope Z_scope.

(** Go's int8(x), ..., int64(x) of an int64: the low [bits] bits as a two's complement number *)
Definition to_signed (bits : Z) (x : Z) : Z :=
  let r := x mod 2 ^ bits in if r <? 2 ^ (bits - 1) then r else r - 2 ^ bits.
(** Go's uint8(x), ..., uint64(x) of a uint64 *)
Definition to_unsigned (bits : Z) (x : Z) : Z := x mod 2 ^ bits.

Section WithFuel.
Variable rf : nat.
(** GetInt64, GetInt, GetInt32, GetInt16, GetInt8, cvter.go:755-869: [bits] is 64, 64, 32, 16, 8;
    [cint] is converter.Int *)
Definition GetIntN (bits : Z) (cint : gval -> Z) (h : hdl) (t : tr) (path : gostring) (defs : list Z) : res (Z * bool) :=
  GetX rf (fun v => to_signed bits (cint v)) 0 h t path defs.
Definition MustIntN (bits : Z) (cint : gval -> Z) (h : hdl) (t : tr) (path : gostring) (defs : list Z) : res Z :=
  MustX rf (fun v => to_signed bits (cint v)) 0 h t path defs.
(** GetUint64, GetUint, GetUint32, GetUint16, GetUint8, cvter.go:885-999: [cuint] is converter.Uint *)
Definition GetUintN (bits : Z) (cuint : gval -> Z) (h : hdl) (t : tr) (path : gostring) (defs : list Z) : res (Z * bool) :=
  GetX rf (fun v => to_unsigned bits (cuint v)) 0 h t path defs.
Definition MustUintN (bits : Z) (cuint : gval -> Z) (h : hdl) (t : tr) (path : gostring) (defs : list Z) : res Z :=
  MustX rf (fun v => to_unsigned bits (cuint v)) 0 h t path defs.
(** MustKibiBytes, cvter.go:1535-1538, and MustKiloBytes, cvter.go:1621-1624 *)
Definition mustBytes (get : res (N * bool)) : res N := do (n, _) <- get; Ok n.
End WithFuel.

(** ** internal/times/time.go *)
Section Times.
Variables (time err : Type) (zero : time).
(** time.Parse; it returns the zero time with an error *)
Variable parse : gostring -> gostring -> time + err.
(** the loop of SmartParseTime, time.go:62-67: [last] is the value of tm and err so far *)
Fixpoint try_layouts (ls : list gostring) (s : gostring) (last : time * option err) : time * option err :=
  match ls with
  | [] => last
  | l :: ls' => match parse l s with
                | inl t => (t, None)
                | inr e => try_layouts ls' s (zero, Some e)
                end
  end.
Definition SmartParseTime (known : list gostring) (s : gostring) : time * option err := try_layouts known s (zero, None).
(** MustSmartParseTime, time.go:9-12 *)
Definition MustSmartParseTime (known : list gostring) (s : gostring) : time := fst (SmartParseTime known s).
(** AddKnownTimeFormats, time.go:130-133 *)
Definition AddKnownTimeFormats (known formats : list gostring) : list gostring := known ++ formats.
End Times.
