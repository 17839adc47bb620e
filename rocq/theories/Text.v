(** Models of the texts made of a store: Dump (radix/node.go:472-554) and MarshalJSON (radix/trie.go:270-280,
    store.go:122-132). *)
From Coq Require Import String.
From Coq Require Import List NArith Bool Arith.
From Verif Require Import GoStr Node Trie Misc.
Import ListNotations.
Open Scope nat_scope.
Open Scope list_scope.

(** ** Dump *)
(** strings.Repeat *)
Fixpoint str_repeat (s : gostring) (n : nat) : gostring :=
  match n with 0 => [] | S n' => s ++ str_repeat s n' end.
(** strings.HasSuffix *)
Definition has_suffix (s suf : gostring) : bool :=
  (length suf <=? length s) && str_eqb (skipn (length s - length suf) s) suf.

Section Dump.
(** ColorToDim, ColorToColor(FgLightGreen, .), ColorToColor(FgGreen, .); fmt.Sprint; %q *)
Variables (dim lightgreen green : gostring -> gostring) (sprint : gval -> gostring) (q : gostring -> gostring).
Definition branchTitle : gostring := s2b "<B>".
Definition leafTitle : gostring := s2b "<L>".
(** the tail of a line that tells of a path that is no end of pathS, node.go:543-545 *)
Definition wrong_mark (n : node) : gostring :=
  if has_suffix (npathS n) (of_runes (npath n)) then []
  else s2b " [WRONG path & pathS: " ++ q (of_runes (npath n)) ++ s2b " / " ++ q (npathS n) ++ s2b "]".
(** a line, node.go:497-547 *)
Definition dump_line (noColor : bool) (lvl : nat) (n : node) : gostring :=
  of_runes (npath n) ++
  (let used := lvl * 2 + length (npath n) in
   if used <? 32 then str_repeat [32%N] (32 - used) else [32%N]) ++
  (let title := if isBranch n then branchTitle else leafTitle in if noColor then title else dim title) ++
  (if hasData n then s2b " " ++ npathS n ++ s2b " => " ++ dim (sprint (ndata n)) else []) ++
  (if is_nil (ncmt n) then [] else lightgreen (s2b " // " ++ ncmt n)) ++
  (if gval_is_nil (ntag n) then [] else s2b " | tag = " ++ green (sprint (ntag n))) ++
  (if is_nil (ndesc n) then [] else lightgreen (s2b " ~ " ++ ndesc n)) ++
  wrong_mark n ++ [10%N].
(** what dumpR writes for the node itself, node.go:491-548 *)
Definition dump_own (noColor : bool) (lvl : nat) (n : node) : gostring :=
  str_repeat (s2b "  ") lvl ++
  (if is_nil (npath n) then (if 0 <? lvl then s2b "(nil)" ++ [10%N] else []) else dump_line noColor lvl n).
(** dumpR, node.go:490-554 *)
Fixpoint dumpR (noColor : bool) (lvl : nat) (n : node) : gostring :=
  dump_own noColor lvl n ++ flat_map (dumpR noColor (S lvl)) (nkids n).
(** Dump, trie.go:851, node.go:472-475 *)
Definition Dump (t : tr) : gostring := dumpR false 0 (root t).
End Dump.

(** ** MarshalJSON *)
(** n hex digits *)
Fixpoint hexn (n : nat) (c : N) : gostring :=
  match n with 0 => [] | S n' => hexn n' (c / 16)%N ++ [hex1 (c mod 16)%N] end.
Section Json.
(** unicode.IsPrint outside ASCII *)
Variable isPrintU : rune -> bool.
Open Scope N_scope.
Definition isPrint (c : rune) : bool := if c <? 0x80 then (32 <=? c) && (c <? 127) else isPrintU c.
(** appendEscapedRune of strconv *)
Definition escape_rune (c : rune) : gostring :=
  if (c =? 34) || (c =? 92) then [92; c]
  else if isPrint c then enc1 c
  else if c =? 7 then s2b "\a" else if c =? 8 then s2b "\b" else if c =? 12 then s2b "\f"
  else if c =? 10 then s2b "\n" else if c =? 13 then s2b "\r" else if c =? 9 then s2b "\t"
  else if c =? 11 then s2b "\v"
  else if (c <? 32) || (c =? 127) then hexesc c
  else if c <? 0x10000 then s2b "\u" ++ hexn 4 c
  else s2b "\U" ++ hexn 8 c.
(** strconv.Quote; [skip] bytes of the rune just handled are still to be passed *)
Fixpoint Quote_go (skip : nat) (s : gostring) : gostring :=
  match s with
  | [] => []
  | b :: t =>
      match skip with
      | S k => Quote_go k t
      | O => let (c, w) := dec1 s in
             (if (w =? 1)%nat && (c =? RuneError) then hexesc b else escape_rune c) ++ Quote_go (pred w) t
      end
  end.
Definition Quote (s : gostring) : gostring := [34] ++ Quote_go 0 s ++ [34].
(** RecusiveMode.String, trie.go:58-69 *)
Definition mode_String (m : rmode) : gostring :=
  match m with ModeNone => s2b "None" | ModeUp => s2b "Up" | ModeDown => s2b "Down" end.
(** of the trie, trie.go:270-280 *)
Definition trie_MarshalJSON (h : hdl) : gostring :=
  s2b """trie"":{""prefix"":" ++ Quote (hprefix h) ++ s2b ",""delimiter"":""" ++ enc1 (hdelim h) ++
  s2b """, ""recursive-mode"":""" ++ mode_String (hmode h) ++ s2b """}".
(** of the store, store.go:122-132 *)
Definition store_MarshalJSON (h : hdl) : gostring := s2b "{" ++ trie_MarshalJSON h ++ s2b "}".
End Json.
