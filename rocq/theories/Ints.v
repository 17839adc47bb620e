(** The integer helpers of internal/times/integers.go. *)
From Coq Require Import List NArith ZArith Bool.
From Verif Require Import GoStr Cvter.
Import ListNotations.
Open Scope Z_scope.

(** strconv.ParseInt(s, 0, 64) of the Go library: the value and err == nil.  [ParseUint] is that of Cvter.v; it gives 0 for
    a syntax error and the largest uint64 for a range error. *)
Definition ParseInt (s : gostring) : Z * bool :=
  match s with
  | [] => (0, false)
  | c :: t =>
      let '(neg, u) := if (c =? 43)%N then (false, t) else if (c =? 45)%N then (true, t) else (false, s) in
      let '(un, ok) := ParseUint u in
      if negb ok && (un =? 0)%N then (0, false)
      else if negb neg && (2 ^ 63 <=? un)%N then (2 ^ 63 - 1, false)
      else if neg && (2 ^ 63 <? un)%N then (- 2 ^ 63, false)
      else (if neg then - Z.of_N un else Z.of_N un, true)
  end.

(** SmartParseInt, integers.go:8-11, and MustSmartParseInt, integers.go:14-17 *)
Definition SmartParseInt (s : gostring) : Z * bool := ParseInt s.
Definition MustSmartParseInt (s : gostring) : Z := let '(ret, _) := ParseInt s in ret.
(** SmartParseUint, integers.go:20-23, and MstSmartParseUint, integers.go:26-29 *)
Definition SmartParseUint (s : gostring) : N * bool := ParseUint s.
Definition MstSmartParseUint (s : gostring) : N := let '(ret, _) := ParseUint s in ret.

(** strconv.FormatInt(z, 10) *)
Definition FormatInt (z : Z) : gostring := if z <? 0 then 45%N :: itoa (Z.to_N (- z)) else itoa (Z.to_N z).
