(** Go strings, runes and the parts of package [strings] used by the store.

    A Go string is a list of bytes, a [[]rune] is a list of code points; both are
    lists of [N].  Go's built-in conversions are modelled after the language spec
    ("Conversions to and from a string type") and [unicode/utf8]. *)
From Coq Require Import List NArith Bool Arith Lia.
From Coq Require Ascii String.
Import ListNotations.
Open Scope N_scope.

Definition rune := N.
Definition gostring := list N.

(** Result of a Go call: normal return, run-time panic, or step bound exhausted. *)
Inductive res (A : Type) : Type :=
| Ok (a : A)
| Panic
| Fuel.
Arguments Ok {A} a.
Arguments Panic {A}.
Arguments Fuel {A}.

Definition bind {A B} (r : res A) (f : A -> res B) : res B :=
  match r with Ok a => f a | Panic => Panic | Fuel => Fuel end.
Notation "'do' x <- r ; k" := (bind r (fun x => k))
  (at level 200, x pattern, r at level 100, k at level 200).

(** Literals for examples: an ASCII Coq string as bytes. *)
Fixpoint s2b (s : String.string) : gostring :=
  match s with
  | String.EmptyString => []
  | String.String c t => Ascii.N_of_ascii c :: s2b t
  end.
Coercion s2b : String.string >-> gostring.

Definition str_eqb (a b : list N) : bool :=
  if list_eq_dec N.eq_dec a b then true else false.

Definition is_nil {A} (l : list A) : bool := match l with [] => true | _ => false end.

(** ** UTF-8 *)

Definition RuneError : rune := 0xFFFD.

Definition is_cont (b : N) : bool := (0x80 <=? b) && (b <=? 0xBF).

(** second-byte ranges of [unicode/utf8]'s acceptRanges for a 3-byte lead *)
Definition ok3 (b0 b1 : N) : bool :=
  if b0 =? 0xE0 then (0xA0 <=? b1) && (b1 <=? 0xBF)
  else if b0 =? 0xED then (0x80 <=? b1) && (b1 <=? 0x9F)
  else is_cont b1.

Definition ok4 (b0 b1 : N) : bool :=
  if b0 =? 0xF0 then (0x90 <=? b1) && (b1 <=? 0xBF)
  else if b0 =? 0xF4 then (0x80 <=? b1) && (b1 <=? 0x8F)
  else is_cont b1.

(** [[]rune(s)]: every undecodable byte becomes U+FFFD (width 1). *)
Fixpoint runes (s : gostring) : list rune :=
  match s with
  | [] => []
  | b0 :: t0 =>
      if b0 <? 0x80 then b0 :: runes t0
      else if (0xC2 <=? b0) && (b0 <=? 0xDF) then
        match t0 with
        | b1 :: t1 =>
            if is_cont b1 then ((b0 - 0xC0) * 64 + (b1 - 0x80)) :: runes t1
            else RuneError :: runes t0
        | [] => RuneError :: runes t0
        end
      else if (0xE0 <=? b0) && (b0 <=? 0xEF) then
        match t0 with
        | b1 :: b2 :: t2 =>
            if ok3 b0 b1 && is_cont b2
            then ((b0 - 0xE0) * 4096 + (b1 - 0x80) * 64 + (b2 - 0x80)) :: runes t2
            else RuneError :: runes t0
        | _ => RuneError :: runes t0
        end
      else if (0xF0 <=? b0) && (b0 <=? 0xF4) then
        match t0 with
        | b1 :: b2 :: b3 :: t3 =>
            if ok4 b0 b1 && is_cont b2 && is_cont b3
            then ((b0 - 0xF0) * 262144 + (b1 - 0x80) * 4096 + (b2 - 0x80) * 64 + (b3 - 0x80))
                   :: runes t3
            else RuneError :: runes t0
        | _ => RuneError :: runes t0
        end
      else RuneError :: runes t0
  end.

(** Unicode scalar values: what a valid UTF-8 string can contain. *)
Definition is_scalar (r : rune) : bool :=
  (r <? 0xD800) || ((0xE000 <=? r) && (r <=? 0x10FFFF)).

(** [string(r)] for one rune; an invalid rune is written as U+FFFD. *)
Definition enc1_valid (r : rune) : gostring :=
  if r <? 0x80 then [r]
  else if r <? 0x800 then [0xC0 + r / 64; 0x80 + r mod 64]
  else if r <? 0x10000 then [0xE0 + r / 4096; 0x80 + (r / 64) mod 64; 0x80 + r mod 64]
  else [0xF0 + r / 262144; 0x80 + (r / 4096) mod 64; 0x80 + (r / 64) mod 64; 0x80 + r mod 64].

Definition enc1 (r : rune) : gostring :=
  if is_scalar r then enc1_valid r else enc1_valid RuneError.

(** [string(rs)] for a rune slice *)
Definition of_runes (rs : list rune) : gostring := flat_map enc1 rs.

(** A string is valid UTF-8 iff decoding and re-encoding gives it back. *)
Definition valid_utf8 (s : gostring) : bool := str_eqb (of_runes (runes s)) s.

Definition ascii (s : list N) : bool := forallb (fun b => b <? 0x80) s.

(** ** package strings *)

(** strings.HasPrefix(s, p) *)
Fixpoint has_prefix (p s : list N) : bool :=
  match p, s with
  | [], _ => true
  | a :: p', b :: s' => (a =? b) && has_prefix p' s'
  | _ :: _, [] => false
  end.

Definition has_suffix (p s : list N) : bool := has_prefix (rev p) (rev s).

(** strings.Contains(s, sub) *)
Fixpoint contains (sub s : list N) : bool :=
  has_prefix sub s || match s with [] => false | _ :: t => contains sub t end.

(** strings.ReplaceAll(s, old, new) for one-byte [old] and [new] *)
Definition replace_byte (old new : N) (s : gostring) : gostring :=
  map (fun b => if b =? old then new else b) s.

(** strings.Split(s, sep) for a non-empty separator: leftmost, non-overlapping.
    [skip] bytes of the separator just found are still to be dropped. *)
Fixpoint split_go (sep : list N) (skip : nat) (cur : list N) (s : list N) : list (list N) :=
  match s with
  | [] => [rev cur]
  | b :: t =>
      match skip with
      | S k => split_go sep k cur t
      | O => if has_prefix sep s
             then rev cur :: split_go sep (pred (length sep)) [] t
             else split_go sep 0 (b :: cur) t
      end
  end.
Definition split_str (s sep : list N) : list (list N) := split_go sep 0 [] s.

(** strings.Join(parts, sep) *)
Fixpoint join_str (parts : list (list N)) (sep : list N) : list N :=
  match parts with
  | [] => []
  | [a] => a
  | a :: rest => a ++ sep ++ join_str rest sep
  end.

(** strconv.AppendInt(_, i, 10) for a slice index (non-negative) *)
Fixpoint digits_go (fuel : nat) (n : N) (acc : list N) : list N :=
  match fuel with
  | O => acc
  | S f => let acc' := (0x30 + n mod 10) :: acc in
           if n / 10 =? 0 then acc' else digits_go f (n / 10) acc'
  end.
Definition itoa (n : N) : gostring := digits_go (S (N.to_nat (N.log2 n))) n [].

(** Dynamic Go values ([any]).  Scalars other than the ones that matter for control
    flow are [GOther]; [GMap] is map[string]any with its entries in iteration order, [GAMap]
    map[any]any, [GMaps] and [GAMaps] slices of those, [GPkg] the ValPkg of new.go:332-337. *)
Inductive gval : Type :=
| GNil
| GBool (b : bool)
| GInt (z : Z)
| GStr (s : gostring)
| GOther (n : N)
| GList (l : list gval)
| GMap (m : list (gostring * gval))
| GAMap (m : list (gval * gval))
| GMaps (l : list (list (gostring * gval)))
| GAMaps (l : list (list (gval * gval)))
| GPkg (v : gval) (desc cmt : gostring) (tag : gval).

Definition gval_is_nil (v : gval) : bool := match v with GNil => true | _ => false end.
