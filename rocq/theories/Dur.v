(** Formatting and parsing of durations, internal/times/dur.go.

    [uint64] values are [N] below 2^64, a [time.Duration] is a [Z] between -2^63 and
    2^63-1.  [float64] is modelled by the stdlib's binary64 specification
    ([Coq.Floats.SpecFloat], prec 53, emax 1024), which is computable and axiom free. *)
From Coq Require Import String.
From Coq Require Import List NArith ZArith Bool Arith Lia.
From Coq Require Import Floats.SpecFloat.
From Verif Require Import GoStr.
Import ListNotations.
Open Scope N_scope.
Open Scope list_scope.

Definition two63 : N := 0x8000000000000000.
Definition two64 : N := 0x10000000000000000.
Definition u64 (x : N) : N := x mod two64.

(** package time's units *)
Definition Nanosecond : N := 1.
Definition Microsecond : N := 1000.
Definition Millisecond : N := 1000000.
Definition Second : N := 1000000000.
Definition Minute : N := 60000000000.
Definition Hour : N := 3600000000000.
Definition Day : N := 86400000000000.

(** ** formatting *)
(** The buffer [32]byte, written from the end: the list of bytes written so far; the index
    [w] is 32 minus its length.  Writing below index 0 panics. *)
Definition bufsize : nat := 32.
Definition put (c : N) (b : gostring) : res gostring :=
  if (length b <? bufsize)%nat then Ok (c :: b) else Panic.

(** fmtInt, dur.go:210-223 *)
Fixpoint fmtDigits (fuel : nat) (b : gostring) (v : N) : res gostring :=
  if v =? 0 then Ok b
  else match fuel with
       | O => Fuel
       | S f => do b1 <- put (48 + v mod 10) b; fmtDigits f b1 (v / 10)
       end.
Definition fmtInt (b : gostring) (v : N) : res gostring :=
  if v =? 0 then put 48 b else fmtDigits 20 b v.

(** fmtFrac, dur.go:188-206 *)
Fixpoint fmtFrac_go (prec : nat) (printed : bool) (b : gostring) (v : N) : res (bool * gostring * N) :=
  match prec with
  | O => Ok (printed, b, v)
  | S p =>
      let digit := v mod 10 in
      let printed1 := printed || negb (digit =? 0) in
      do b1 <- (if printed1 then put (48 + digit) b else Ok b);
      fmtFrac_go p printed1 b1 (v / 10)
  end.
Definition fmtFrac (b : gostring) (v : N) (prec : nat) : res (gostring * N) :=
  do (printed, b1, v1) <- fmtFrac_go prec false b v;
  do b2 <- (if printed : bool then put 46 b1 else Ok b1);
  Ok (b2, v1).

(** fmtMsec, dur.go:157-182; the two bytes of 'µ' are copied into room made for both *)
Definition fmtMsec (b : gostring) (u : N) : res gostring :=
  if u =? 0 then put 48 b
  else
    do (b1, prec) <-
      (if u <? Microsecond then do b1 <- put 110 b; Ok (b1, 0%nat)
       else if u <? Millisecond then do b1 <- put 181 b; do b2 <- put 194 b1; Ok (b2, 3%nat)
       else do b1 <- put 109 b; Ok (b1, 6%nat));
    do (b2, u2) <- fmtFrac b1 u prec;
    fmtInt b2 u2.
(** fmtSeconds, dur.go:148-155 *)
Definition fmtSeconds (b : gostring) (u : N) : res gostring :=
  do b1 <- put 115 b; fmtMsec b1 u.

(** one optional part "<number><unit>" of dur.go:99-137; [unit] last byte first *)
Fixpoint puts (l : list N) (b : gostring) : res gostring :=
  match l with [] => Ok b | c :: l' => do b1 <- put c b; puts l' b1 end.
Definition part (v : N) (unit : list N) (b : gostring) : res gostring :=
  if 0 <? v then do b1 <- puts unit b; fmtInt b1 v else Ok b.

(** [if u >= unit { x = u / unit; u = u % unit }], dur.go:74-97 *)
Definition cut (u unit : N) : N * N := if unit <=? u then (u / unit, u mod unit) else (0, u).

(** shortDurFormat, dur.go:31-146; [uint64(d)] of a negative [d] wraps, then it is negated *)
Definition absu (d : Z) : N :=
  let u := Z.to_N (d mod Z.of_N two64) in
  if (d <? 0)%Z then u64 (two64 - u) else u.
Definition shortDurFormat (d : Z) (useFrac : bool) : res gostring :=
  let u := absu d in
  do b <-
    (if u <? Second then fmtSeconds [] u
     else if useFrac then
       do b1 <- put 115 [];
       do (b2, u1) <- fmtFrac b1 u 9;
       do b3 <- fmtInt b2 (u1 mod 60);
       let u2 := u1 / 60 in
       if 0 <? u2 then
         do b4 <- put 109 b3;
         do b5 <- fmtInt b4 (u2 mod 60);
         let u3 := u2 / 60 in
         if 0 <? u3 then do b6 <- put 104 b5; fmtInt b6 u3 else Ok b5
       else Ok b3
     else
       (* days = u / 24 / hour, dur.go:75 *)
       let '(days, u1) := if Day <=? u then (u / 24 / Hour, u mod (24 * Hour)) else (0, u) in
       let '(hours, u2) := cut u1 Hour in
       let '(minutes, u3) := cut u2 Minute in
       let '(seconds, u4) := cut u3 Second in
       let '(ms, u5) := cut u4 Millisecond in
       let '(us, ns) := cut u5 Microsecond in
       do b1 <- part ns [115; 110] [];
       do b2 <- part us [115; 181; 194] b1;
       do b3 <- part ms [115; 109] b2;
       do b4 <- part seconds [115] b3;
       do b5 <- part minutes [109] b4;
       do b6 <- part hours [104] b5;
       part days [100] b6);
  if (d <? 0)%Z then put 45 b else Ok b.

(** SmartDurationString, dur.go:13, and SmartDurationStringEx, dur.go:23-29 *)
Definition SmartDurationStringEx (d : Z) (frac : bool) : res gostring := shortDurFormat d frac.
Definition SmartDurationString (d : Z) : res gostring := SmartDurationStringEx d false.

(** ** parsing *)
Definition is_digit (c : N) : bool := (48 <=? c) && (c <=? 57).

(** leadingInt, dur.go:373-391: value and rest, or the overflow error *)
Fixpoint leadingInt (s : gostring) (x : N) : option (N * gostring) :=
  match s with
  | c :: t =>
      if is_digit c then
        if two63 / 10 <? x then None
        else
          let x1 := u64 (x * 10 + c - 48) in
          if two63 <? x1 then None else leadingInt t x1
      else Some (x, s)
  | [] => Some (x, [])
  end.

(** float64 *)
Definition f64 := spec_float.
Definition fprec : Z := 53.
Definition femax : Z := 1024.
Definition f64_of (n : N) : f64 := binary_normalize fprec femax (Z.of_N n) 0 false.
Definition fmul (a b : f64) : f64 := SFmul fprec femax a b.
Definition fdiv (a b : f64) : f64 := SFdiv fprec femax a b.
(** uint64(f): truncation; not finite or out of range (never here): 0 *)
Definition u64_of (f : f64) : N :=
  match f with
  | S754_finite false m e =>
      let z := match e with
               | Zneg p => (Zpos m / 2 ^ Zpos p)%Z
               | _ => (Zpos m * 2 ^ e)%Z
               end in
      if Z.to_N z <? two64 then Z.to_N z else 0
  | _ => 0
  end.

(** leadingFraction, dur.go:396-422: digits, scale, rest *)
Fixpoint leadingFraction (s : gostring) (x : N) (scale : f64) (overflow : bool) : N * f64 * gostring :=
  match s with
  | c :: t =>
      if is_digit c then
        if overflow then leadingFraction t x scale true
        else if (two63 - 1) / 10 <? x then leadingFraction t x scale true
        else
          let y := u64 (x * 10 + c - 48) in
          if two63 <? y then leadingFraction t x scale true
          else leadingFraction t y (fmul scale (f64_of 10)) false
      else (x, scale, s)
  | [] => (x, scale, [])
  end.

(** unitMap, dur.go:424-434 *)
Definition unitMap (u : gostring) : option N :=
  if str_eqb u (s2b "ns"%string) then Some Nanosecond
  else if str_eqb u (s2b "us"%string) then Some Microsecond
  else if str_eqb u [194; 181; 115] then Some Microsecond
  else if str_eqb u [206; 188; 115] then Some Microsecond
  else if str_eqb u (s2b "ms"%string) then Some Millisecond
  else if str_eqb u (s2b "s"%string) then Some Second
  else if str_eqb u (s2b "m"%string) then Some Minute
  else if str_eqb u (s2b "h"%string) then Some Hour
  else if str_eqb u (s2b "d"%string) then Some Day
  else None.

(** the bytes up to the next digit or '.', dur.go:325-332 *)
Fixpoint span_unit (s : gostring) : gostring * gostring :=
  match s with
  | c :: t => if (c =? 46) || is_digit c then ([], s)
              else let '(u, r) := span_unit t in (c :: u, r)
  | [] => ([], [])
  end.

(** the loop dur.go:292-360; None: an error is returned.  Every round consumes input. *)
Fixpoint parseLoop (fuel : nat) (s : gostring) (d : N) : res (option N) :=
  match s with
  | [] => Ok (Some d)
  | c0 :: _ =>
      match fuel with
      | O => Fuel
      | S fuel' =>
          if negb ((c0 =? 46) || is_digit c0) then Ok None
          else
            match leadingInt s 0 with
            | None => Ok None
            | Some (v, s1) =>
                let pre := negb (length s =? length s1)%nat in
                let '(f, scale, s2, post) :=
                  match s1 with
                  | c1 :: t1 =>
                      if c1 =? 46 then
                        let '(f, scale, s2) := leadingFraction t1 0 (f64_of 1) false in
                        (f, scale, s2, negb (length t1 =? length s2)%nat)
                      else (0, f64_of 1, s1, false)
                  | [] => (0, f64_of 1, s1, false)
                  end in
                if negb pre && negb post then Ok None
                else
                  let '(u, s3) := span_unit s2 in
                  if is_nil u then Ok None
                  else
                    match unitMap u with
                    | None => Ok None
                    | Some unit =>
                        if two63 / unit <? v then Ok None
                        else
                          let v1 := u64 (v * unit) in
                          let v2 := if 0 <? f
                                    then u64 (v1 + u64_of (fmul (f64_of f) (fdiv (f64_of unit) scale)))
                                    else v1 in
                          if (0 <? f) && (two63 <? v2) then Ok None
                          else
                            let d1 := u64 (d + v2) in
                            if two63 <? d1 then Ok None else parseLoop fuel' s3 d1
                    end
            end
      end
  end.

(** time.Duration(d) of a uint64: two's complement *)
Definition dur_of (d : N) : Z :=
  if two63 <=? d then (Z.of_N d - Z.of_N two64)%Z else Z.of_N d.
(** negation of an int64 *)
Definition neg64 (z : Z) : Z :=
  if (z =? - Z.of_N two63)%Z then z else (- z)%Z.

(** the optional sign, dur.go:277-284 *)
Definition strip_sign (s : gostring) : bool * gostring :=
  match s with
  | c :: t => if c =? 45 then (true, t) else if c =? 43 then (false, t) else (false, s)
  | [] => (false, s)
  end.

(** ParseDuration, dur.go:271-368: the duration, or None for an error *)
Definition ParseDuration (s : gostring) : res (option Z) :=
  let '(neg, s1) := strip_sign s in
  if str_eqb s1 (s2b "0"%string) then Ok (Some 0%Z)
  else if is_nil s1 then Ok None
  else
    do o <- parseLoop (length s1) s1 0;
    Ok (match o with
        | None => None
        | Some d =>
            if neg then Some (neg64 (dur_of d))
            else if two63 - 1 <? d then None else Some (dur_of d)
        end).

(** MustParseDuration, dur.go:258-261 *)
Definition MustParseDuration (s : gostring) : res Z :=
  do o <- ParseDuration s; Ok (match o with Some d => d | None => 0%Z end).
