(** The properties of duration texts (C34-C36): only statements.

    [dur_range d]: [d] is an int64.  A result [Panic] is a Go panic; [Ok None] is an error
    return of ParseDuration.  [good_term]: digits, optional fraction, known unit.
    [exact_term]: the fraction has no more digits than nanoseconds can show.  [dstr]: the text
    of the terms, [dsum]: what they add up to in nanoseconds. *)
From Coq Require Import String.
From Coq Require Import List NArith ZArith Bool Arith Lia.
From Verif Require Import GoStr Dur DurSpec DurProofs DurFormat DurSound.
Import ListNotations.
Open Scope N_scope.
Open Scope list_scope.

Ltac run := vm_compute; reflexivity.

(** ** C34: formatting *)
(** the text is the one of [dtext]; it fails exactly when that is longer than 32 bytes *)
Theorem C34_format d frac : dur_range d ->
  SmartDurationStringEx d frac = if (length (dtext d frac) <=? 32)%nat then Ok (dtext d frac) else Panic.
Proof. exact (format_spec d frac). Qed.
Print Assumptions C34_format.
Theorem C34_total d frac : dur_range d ->
  frac = true \/ (0 <= d)%Z \/ (- 100000 * 24 * 3600 * 1000000000 < d)%Z ->
  exists s, SmartDurationStringEx d frac = Ok s /\ (length s <= 32)%nat.
Proof. exact (format_total d frac). Qed.
Print Assumptions C34_total.
(** "-106751d23h47m16s854ms775µs808ns" is one byte too long *)
Theorem C34_refuted : exists d, dur_range d /\ SmartDurationString d = Panic.
Proof. exists (- 2 ^ 63)%Z. split; [unfold dur_range; split; [apply Z.le_refl|reflexivity]|run]. Qed.
Print Assumptions C34_refuted.
Example C34_case :
  SmartDurationString 93784005006007 = Ok (s2b "1d2h3m4s5ms6"%string ++ [194; 181; 115] ++ s2b "7ns"%string) /\
  SmartDurationStringEx 93784005006007 true = Ok (s2b "26h3m4.005006007s"%string) /\
  SmartDurationString (-1500000) = Ok (s2b "-1.5ms"%string).
Proof. split; [run|split; run]. Qed.

(** ** C35: round trip *)
Theorem C35_round_trip d frac s : dur_range d ->
  SmartDurationStringEx d frac = Ok s -> ParseDuration s = Ok (Some d).
Proof. exact (format_parse d frac s). Qed.
Print Assumptions C35_round_trip.
(** formatting is injective: different durations have different texts *)
Theorem C35_injective d1 d2 f1 f2 s : dur_range d1 -> dur_range d2 ->
  SmartDurationStringEx d1 f1 = Ok s -> SmartDurationStringEx d2 f2 = Ok s -> d1 = d2.
Proof.
  intros H1 H2 E1 E2. pose proof (C35_round_trip d1 f1 s H1 E1) as P1.
  pose proof (C35_round_trip d2 f2 s H2 E2) as P2. rewrite P1 in P2. now inversion P2.
Qed.
Print Assumptions C35_injective.
Example C35_case :
  exists s, SmartDurationStringEx (- 2 ^ 63) true = Ok s /\ ParseDuration s = Ok (Some (- 2 ^ 63)%Z).
Proof. eexists. split; [vm_compute; reflexivity|run]. Qed.

(** ** C36: parsing *)
(** a text of terms denotes exactly their sum and is rejected when that is out of range,
    provided the sum is below 2^64 or no single term is 2^63 nanoseconds *)
Theorem C36_exact sg neg ts :
  sign_of sg neg -> ts <> [] -> Forall good_term ts -> Forall exact_term ts -> nowrap ts ->
  ParseDuration (sg ++ dstr ts) =
    Ok (if neg then if dsum ts <=? two63 then Some (- Z.of_N (dsum ts))%Z else None
        else if dsum ts <? two63 then Some (Z.of_N (dsum ts)) else None).
Proof. exact (@parse_terms sg neg ts). Qed.
Print Assumptions C36_exact.
(** parsing always returns, and whatever it accepts is such a text (or "0") *)
Theorem C36_accepts_only s : exists o, ParseDuration s = Ok o /\
  (o <> None -> exists sg neg, sign_of sg neg /\
    ((s = sg ++ [48] /\ o = Some 0%Z) \/
     exists ts, s = sg ++ dstr ts /\ ts <> [] /\ Forall good_term ts)).
Proof. exact (@parse_sound s). Qed.
Print Assumptions C36_accepts_only.
(** MustParseDuration: the same with zero for what is rejected *)
Theorem C36_must sg neg ts :
  sign_of sg neg -> ts <> [] -> Forall good_term ts -> Forall exact_term ts -> nowrap ts ->
  MustParseDuration (sg ++ dstr ts) =
    Ok (if neg then if dsum ts <=? two63 then (- Z.of_N (dsum ts))%Z else 0%Z
        else if dsum ts <? two63 then Z.of_N (dsum ts) else 0%Z).
Proof. exact (@must_terms sg neg ts). Qed.
Print Assumptions C36_must.
Theorem C36_must_only s : exists d, MustParseDuration s = Ok d /\
  (d <> 0%Z -> exists sg neg ts, sign_of sg neg /\ s = sg ++ dstr ts /\ ts <> [] /\ Forall good_term ts).
Proof. exact (@must_sound s). Qed.
Print Assumptions C36_must_only.
(** ... but two terms of 2^63 nanoseconds wrap around to zero *)
Theorem C36_refuted : exists ts, Forall good_term ts /\ Forall exact_term ts /\ dsum ts = 2 ^ 64 /\
  ParseDuration (dstr ts) = Ok (Some 0%Z).
Proof.
  pose (t := Term (s2b "9223372036854775808"%string) None (s2b "ns"%string) 1).
  assert (G : good_term t).
  { split; [|split; [constructor|split; [left; discriminate|left; reflexivity]]].
    unfold t. cbn. repeat (constructor; [split; vm_compute; discriminate|]). constructor. }
  assert (X : exact_term t) by (exists 1; reflexivity).
  exists [t; t]. split; [auto|]. split; [auto|]. split; run.
Qed.
Print Assumptions C36_refuted.
Example C36_case :
  exists ts, ts <> [] /\ Forall good_term ts /\ Forall exact_term ts /\ nowrap ts /\
    dstr ts = s2b "3d1.5h.25s"%string /\ dsum ts = 264600250000000.
Proof.
  exists [Term (s2b "3"%string) None (s2b "d"%string) 86400000000000; Term (s2b "1"%string) (Some (s2b "5"%string)) (s2b "h"%string) 3600000000000;
          Term [] (Some (s2b "25"%string)) (s2b "s"%string) 1000000000].
  assert (Q : forall c, (48 <=? c) && (c <=? 57) = true -> digit c).
  { intros c H. apply andb_true_iff in H. destruct H as [H1 H2]. apply N.leb_le in H1, H2. now split. }
  assert (D : forall l, forallb (fun c => (48 <=? c) && (c <=? 57)) l = true -> Forall digit l).
  { intros l H. apply Forall_forall. intros c Hc. apply Q. rewrite forallb_forall in H. now apply H. }
  split; [discriminate|]. split.
  { repeat (apply Forall_cons); [| | |constructor];
      (split; [apply D; reflexivity|split; [apply D; reflexivity|split; [first [left; discriminate|right; discriminate]|]]]).
    - do 8 right. left. reflexivity.
    - do 7 right. left. reflexivity.
    - do 5 right. left. reflexivity. }
  split.
  { repeat (apply Forall_cons); [| | |constructor]; [exists 86400000000000|exists 360000000000|exists 10000000]; reflexivity. }
  split; [left; run|]. split; run.
Qed.
Example C36_case_reject : ParseDuration (s2b "106751d23h47m16s854ms775us808ns"%string) = Ok None.
Proof. run. Qed.
