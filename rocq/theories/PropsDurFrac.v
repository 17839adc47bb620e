(** The properties of duration texts with fractions finer than a nanosecond (C148, C149):
    only statements.

    [val ds]: the number a list of digits denotes; [tval t]: what a term denotes, in whole
    nanoseconds rounded down; [dsum ts]: the sum of those.  [near t v]: [v] is at most one
    nanosecond from [tval t], and [tval t] itself when the unit is a multiple of the
    fraction's last place.  [total vs]: the sum of a list. *)
From Coq Require Import String.
From Coq Require Import List NArith ZArith Bool Arith Lia.
From Verif Require Import GoStr Dur DurSpec DurProofs DurClose.
Import ListNotations.
Open Scope N_scope.
Open Scope list_scope.

Ltac run := vm_compute; reflexivity.

(** ** C148: how far a fraction can be off *)
(** every text of terms: they contribute numbers
    within one nanosecond of what they denote, and the result is exactly the sum of these
    numbers, or a rejection when that is out of range *)
Theorem C148_terms sg neg ts :
  sign_of sg neg -> ts <> [] -> Forall good_term ts ->
  exists vs, Forall2 near ts vs /\
    (total vs < 2 ^ 64 \/ Forall (fun v => v <> 2 ^ 63) vs ->
     ParseDuration (sg ++ dstr ts) =
       Ok (if neg then if total vs <=? 2 ^ 63 then Some (- Z.of_N (total vs))%Z else None
           else if total vs <? 2 ^ 63 then Some (Z.of_N (total vs)) else None)).
Proof. exact (@parse_terms_near sg neg ts). Qed.
Print Assumptions C148_terms.
(** so the result is off by at most one nanosecond per term *)
Theorem C148_error sg neg ts :
  sign_of sg neg -> ts <> [] -> Forall good_term ts ->
  dsum ts + N.of_nat (length ts) < 2 ^ 63 ->
  exists v, ParseDuration (sg ++ dstr ts) = Ok (Some (if neg then - Z.of_N v else Z.of_N v)%Z) /\
    dsum ts <= v + N.of_nat (length ts) /\ v <= dsum ts + N.of_nat (length ts).
Proof. exact (@parse_terms_error sg neg ts). Qed.
Print Assumptions C148_error.

Lemma digits_ok l : forallb (fun c => (48 <=? c) && (c <=? 57)) l = true -> Forall digit l.
Proof.
  intros H. apply Forall_forall. intros c Hc. rewrite forallb_forall in H. specialize (H c Hc).
  apply andb_true_iff in H. destruct H as [H1 H2]. apply N.leb_le in H1, H2. now split.
Qed.
Definition day15 : term := Term (s2b "1"%string) (Some (s2b "449630815066331"%string)) (s2b "d"%string) 86400000000000.
Definition usec (f : string) : term := Term (s2b "0"%string) (Some (s2b f)) (s2b "us"%string) 1000.
Lemma day15_good : good_term day15.
Proof. split; [apply digits_ok; reflexivity|split; [apply digits_ok; reflexivity|split; [left; discriminate|do 8 right; left; reflexivity]]]. Qed.
Lemma usec_good f : forallb (fun c => (48 <=? c) && (c <=? 57)) (s2b f) = true -> good_term (usec f).
Proof. intros H. split; [apply digits_ok; reflexivity|split; [apply digits_ok; exact H|split; [left; discriminate|right; left; reflexivity]]]. Qed.
(** the hypotheses hold of "1.449630815066331d0.00100000000000us", whose terms are off by one
    nanosecond in opposite directions *)
Example C148_case : exists ts, ts <> [] /\ Forall good_term ts /\
  dsum ts + N.of_nat (length ts) < 2 ^ 63 /\
  dstr ts = s2b "1.449630815066331d0.00100000000000us"%string /\
  map tval ts = [86400000000000 + 38848102421730; 1] /\
  map (fun t => ParseDuration (tstr t)) ts = [Ok (Some (86400000000000 + 38848102421731)%Z); Ok (Some 0%Z)].
Proof.
  exists [day15; usec "00100000000000"]. split; [discriminate|]. split.
  { constructor; [apply day15_good|constructor; [now apply usec_good|constructor]]. }
  repeat split; run.
Qed.

(** ** C149: trailing zeros *)
(** two texts that denote the same whole number of nanoseconds, one with trailing zeros, parse
    to different durations: "0.500us" to 500, "0.50000000000000us" to 499 *)
Theorem C149_refuted : exists t1 t2 d1 d2,
  good_term t1 /\ good_term t2 /\ t_int t1 = t_int t2 /\ t_unit t1 = t_unit t2 /\ t_ns t1 = t_ns t2 /\
  (exists zeros, Forall (fun c => c = 48) zeros /\ frac_digits t2 = frac_digits t1 ++ zeros) /\
  exact_term t1 /\ tval t1 = tval t2 /\
  ParseDuration (tstr t1) = Ok (Some d1) /\ ParseDuration (tstr t2) = Ok (Some d2) /\ d1 <> d2.
Proof.
  exists (usec "500"), (usec "50000000000000"), 500%Z, 499%Z.
  split; [now apply usec_good|]. split; [now apply usec_good|].
  split; [reflexivity|]. split; [reflexivity|]. split; [reflexivity|].
  split; [exists (s2b "00000000000"%string); split; [repeat constructor|reflexivity]|].
  split; [exists 1; reflexivity|]. split; [run|]. split; [run|]. split; [run|discriminate].
Qed.
Print Assumptions C149_refuted.
