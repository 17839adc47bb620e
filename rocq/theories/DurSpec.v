(** What a duration text denotes, independent of the code: a sequence of terms, each a
    decimal number with an optional fraction and a unit. *)
From Coq Require Import String.
From Coq Require Import List NArith ZArith Bool Arith Lia.
From Verif Require Import GoStr.
Import ListNotations.
Open Scope N_scope.
Open Scope list_scope.

(** units and their length in nanoseconds *)
Definition units : list (gostring * N) :=
  [(s2b "ns"%string, 1); (s2b "us"%string, 1000); ([194; 181; 115], 1000); ([206; 188; 115], 1000);
   (s2b "ms"%string, 1000000); (s2b "s"%string, 1000000000); (s2b "m"%string, 60 * 1000000000);
   (s2b "h"%string, 60 * 60 * 1000000000); (s2b "d"%string, 24 * 60 * 60 * 1000000000)].

Definition digit (c : N) : Prop := 48 <= c /\ c <= 57.
(** the number denoted by a list of decimal digits *)
Definition val (ds : list N) : N := fold_left (fun x c => 10 * x + (c - 48)) ds 0.

Record term := Term { t_int : list N; t_frac : option (list N); t_unit : gostring; t_ns : N }.
Definition frac_digits (t : term) : list N := match t_frac t with Some f => f | None => [] end.
Definition good_term (t : term) : Prop :=
  Forall digit (t_int t) /\ Forall digit (frac_digits t) /\
  (t_int t <> [] \/ frac_digits t <> []) /\ In (t_unit t, t_ns t) units.
(** the fraction is a whole number of nanoseconds *)
Definition exact_term (t : term) : Prop :=
  exists q, t_ns t = q * 10 ^ N.of_nat (length (frac_digits t)).

Definition tstr (t : term) : gostring :=
  t_int t ++ (match t_frac t with Some f => 46 :: f | None => [] end) ++ t_unit t.
Definition tval (t : term) : N :=
  val (t_int t) * t_ns t + val (frac_digits t) * t_ns t / 10 ^ N.of_nat (length (frac_digits t)).

Definition dstr (ts : list term) : gostring := concat (map tstr ts).
Definition dsum (ts : list term) : N := fold_right (fun t x => tval t + x) 0 ts.

(** the range of time.Duration *)
Definition dur_range (d : Z) : Prop := (- 2 ^ 63 <= d < 2 ^ 63)%Z.

(** [v] is at most a nanosecond from what a term denotes, and exactly that when its fraction
    is a whole number of the last place *)
Definition near (t : term) (v : N) : Prop :=
  tval t <= v + 1 /\ v <= tval t + 1 /\ (exact_term t -> v = tval t).
Definition total (vs : list N) : N := fold_right N.add 0 vs.
