(** The properties of the integer helpers (C213, C214): only statements.

    [literal s b t]: the text [s] is an integer literal of the Go specification in base [b] with the digits [t]; [reading b t] is its
    number.  [int_text s z]: [s] is a literal with or without a sign, and stands for [z].  [in64 z]: -2^63 <= z < 2^63.
    [clamp z]: the nearest number of 64 bits. *)
From Coq Require Import String.
From Coq Require Import List NArith ZArith Bool Arith Lia.
From Verif Require Import GoStr Cvter SizeLit Ints IntsProofs.
Import ListNotations.
Open Scope Z_scope.
Open Scope list_scope.
Ltac run := vm_compute; reflexivity.

(** ** C213: what the integer helpers read *)
Theorem C213_int s z : SmartParseInt s = (z, true) <-> int_text s z /\ in64 z.
Proof. exact (int_only s z). Qed.
Print Assumptions C213_int.
Theorem C213_int_clamped s z : int_text s z -> SmartParseInt s = (clamp z, (- 2 ^ 63 <=? z) && (z <? 2 ^ 63)).
Proof. exact (int_reads s z). Qed.
Print Assumptions C213_int_clamped.
Theorem C213_int_error s z : SmartParseInt s = (z, false) -> z = 0 \/ z = 2 ^ 63 - 1 \/ z = - 2 ^ 63.
Proof. exact (int_error s z). Qed.
Print Assumptions C213_int_error.
Theorem C213_uint s n : SmartParseUint s = (n, true) <-> exists b t, literal s b t /\ n = reading b t /\ (n < 2 ^ 64)%N.
Proof. exact (uint_only s n). Qed.
Print Assumptions C213_uint.
Theorem C213_uint_over s b t : literal s b t -> (2 ^ 64 <= reading b t)%N -> SmartParseUint s = ((2 ^ 64 - 1)%N, false).
Proof. exact (uint_over s b t). Qed.
Print Assumptions C213_uint_over.
Theorem C213_uint_signed c s : c = 43%N \/ c = 45%N -> SmartParseUint (c :: s) = (0%N, false).
Proof. exact (uint_signed c s). Qed.
Print Assumptions C213_uint_signed.
(** numbers written in decimal are read back *)
Theorem C213_int_written z : in64 z -> SmartParseInt (FormatInt z) = (z, true).
Proof. exact (int_written z). Qed.
Print Assumptions C213_int_written.
Theorem C213_uint_written n : (n < 2 ^ 64)%N -> SmartParseUint (itoa n) = (n, true).
Proof. exact (uint_written n). Qed.
Print Assumptions C213_uint_written.
(** the variants without an error *)
Theorem C213_must_int s z : int_text s z -> MustSmartParseInt s = clamp z.
Proof. exact (must_int s z). Qed.
Print Assumptions C213_must_int.
Theorem C213_must_uint s b t : literal s b t -> MstSmartParseUint s = N.min (reading b t) (2 ^ 64 - 1).
Proof. exact (must_uint s b t). Qed.
Print Assumptions C213_must_uint.
Example C213_case :
  int_text (s2b "-0x_1F"%string) (-31) /\ in64 (-31) /\ SmartParseInt (s2b "-0x_1F"%string) = (-31, true) /\
  SmartParseInt (s2b "+017"%string) = (15, true) /\ SmartParseInt (s2b "1_000"%string) = (1000, true) /\
  SmartParseInt (s2b "- 1"%string) = (0, false) /\ SmartParseInt (s2b "089"%string) = (0, false) /\
  SmartParseInt (s2b "-9223372036854775808"%string) = (- 2 ^ 63, true) /\
  SmartParseInt (s2b "9223372036854775808"%string) = (2 ^ 63 - 1, false) /\
  FormatInt (-120) = s2b "-120"%string /\ FormatInt 0 = s2b "0"%string /\
  SmartParseUint (s2b "18446744073709551616"%string) = ((2 ^ 64 - 1)%N, false).
Proof.
  split. { apply (it_minus (s2b "0x_1F"%string) 16 (s2b "1F"%string)). apply (l_pre_ 120%N 16%N); [cbn; tauto|]. repeat constructor. }
  split; [unfold in64; lia|]. repeat split; run.
Qed.

(** ** C214: a text that is no integer gives 0 *)
(** a number too large is given up before the rest of the text is looked at *)
Theorem C214_refuted :
  (forall z, ~ int_text (s2b "99999999999999999999 bottles"%string) z) /\
  MustSmartParseInt (s2b "99999999999999999999 bottles"%string) = 2 ^ 63 - 1 /\
  MstSmartParseUint (s2b "99999999999999999999 bottles"%string) = (2 ^ 64 - 1)%N /\
  MustSmartParseInt (s2b "99 bottles"%string) = 0 /\ MstSmartParseUint (s2b "99 bottles"%string) = 0%N.
Proof.
  split; [|repeat split; run]. intros z H. apply (no_literal (s2b "99999999999999999999 bottles"%string) 32%N z); [reflexivity| |exact H].
  vm_compute. tauto.
Qed.
Print Assumptions C214_refuted.
