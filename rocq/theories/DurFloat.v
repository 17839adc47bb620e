(** Small integers in binary64: conversions, products and quotients by powers of ten are exact. *)
From Coq Require Import List NArith ZArith Bool Arith Lia.
From Coq Require Import Floats.SpecFloat.
From Verif Require Import GoStr Dur.
Import ListNotations.
Open Scope Z_scope.

Definition sh (k : nat) (p : positive) : positive := Nat.iter k xO p.
Definition dg (p : positive) : Z := Zpos (digits2_pos p).

Lemma sh_S k p : sh (S k) p = xO (sh k p).
Proof. reflexivity. Qed.
Lemma sh_val k p : Zpos (sh k p) = Zpos p * 2 ^ Z.of_nat k.
Proof.
  induction k as [|k IH]; [cbn; lia|].
  rewrite sh_S, Pos2Z.inj_xO, IH, Nat2Z.inj_succ, Z.pow_succ_r by lia. lia.
Qed.
Lemma sh_dg k p : dg (sh k p) = dg p + Z.of_nat k.
Proof.
  induction k as [|k IH]; [cbn; lia|]. rewrite sh_S. unfold dg in *. cbn [digits2_pos].
  rewrite Pos2Z.inj_succ, IH. lia.
Qed.
Lemma sh_mul a b p q : (sh a p * sh b q)%positive = sh (a + b) (p * q).
Proof.
  apply Pos2Z.inj. rewrite Pos2Z.inj_mul, !sh_val, Pos2Z.inj_mul, Nat2Z.inj_add, Z.pow_add_r by lia. ring.
Qed.
Lemma dg_bounds p : 2 ^ (dg p - 1) <= Zpos p < 2 ^ dg p.
Proof.
  unfold dg. induction p as [p IH|p IH|]; cbn [digits2_pos]; try (cbn; lia).
  - rewrite Pos2Z.inj_succ. replace (Z.succ (Zpos (digits2_pos p)) - 1) with (Z.succ (Zpos (digits2_pos p) - 1)) by lia.
    rewrite !Z.pow_succ_r by lia. rewrite (Pos2Z.inj_xI p). lia.
  - rewrite Pos2Z.inj_succ. replace (Z.succ (Zpos (digits2_pos p)) - 1) with (Z.succ (Zpos (digits2_pos p) - 1)) by lia.
    rewrite !Z.pow_succ_r by lia. rewrite (Pos2Z.inj_xO p). lia.
Qed.
Lemma dg_pos p : 1 <= dg p.
Proof. unfold dg. lia. Qed.
Lemma dg_small p : Zpos p < 2 ^ 53 -> dg p <= 53.
Proof.
  intros H. destruct (Z.le_gt_cases (dg p) 53); auto.
  pose proof (proj1 (dg_bounds p)). assert (2 ^ 53 <= 2 ^ (dg p - 1)) by (apply Z.pow_le_mono_r; lia). lia.
Qed.
Lemma dg_mono p q : Zpos p <= Zpos q -> dg p <= dg q.
Proof.
  intros H. destruct (Z.le_gt_cases (dg p) (dg q)) as [X|X]; auto.
  pose proof (proj1 (dg_bounds p)). pose proof (proj2 (dg_bounds q)).
  assert (2 ^ dg q <= 2 ^ (dg p - 1)) by (apply Z.pow_le_mono_r; pose proof (dg_pos q); lia). lia.
Qed.

Lemma iter_add {A} (f : A -> A) a b x : Nat.iter (a + b) f x = Nat.iter a f (Nat.iter b f x).
Proof. induction a as [|a IH]; [reflexivity|]. change (f (Nat.iter (a + b) f x) = f (Nat.iter a f (Nat.iter b f x))). now rewrite IH. Qed.
Lemma iter_pos_nat {A} (f : A -> A) : forall n x, iter_pos f n x = Nat.iter (Pos.to_nat n) f x.
Proof.
  induction n as [n IH|n IH|]; intros x; cbn [iter_pos].
  - rewrite !IH, <- iter_add. rewrite Pos2Nat.inj_xI. replace (S (2 * Pos.to_nat n)) with (Pos.to_nat n + Pos.to_nat n + 1)%nat by lia.
    rewrite (iter_add f _ 1). reflexivity.
  - rewrite !IH, <- iter_add. rewrite Pos2Nat.inj_xO. f_equal. lia.
  - reflexivity.
Qed.
Lemma shr_iter n : forall k r, Nat.iter n shr_1 {| shr_m := Zpos (sh (n + k) r); shr_r := false; shr_s := false |} =
  {| shr_m := Zpos (sh k r); shr_r := false; shr_s := false |}.
Proof.
  induction n as [|n IH]; intros k r; [reflexivity|].
  replace (S n + k)%nat with (n + S k)%nat by lia. 
  change (shr_1 (Nat.iter n shr_1 {| shr_m := Zpos (sh (n + S k) r); shr_r := false; shr_s := false |}) =
    {| shr_m := Zpos (sh k r); shr_r := false; shr_s := false |}).
  rewrite IH. reflexivity.
Qed.

Lemma round_exact r s :
  dg r <= 53 -> 53 - dg r <= Z.of_nat s ->
  binary_round_aux fprec femax false (Zpos (sh s r)) (- Z.of_nat s) loc_Exact =
  S754_finite false (sh (Z.to_nat (53 - dg r)) r) (dg r - 53).
Proof.
  intros H1 H2. pose proof (dg_pos r) as H0. unfold binary_round_aux.
  assert (E1 : shr_fexp fprec femax (Zpos (sh s r)) (- Z.of_nat s) loc_Exact =
    ({| shr_m := Zpos (sh (Z.to_nat (53 - dg r)) r); shr_r := false; shr_s := false |}, dg r - 53)).
  { unfold shr_fexp. cbn [Zdigits2]. fold (dg (sh s r)). rewrite sh_dg. unfold fexp, emin, fprec, femax.
    replace (Z.max (dg r + Z.of_nat s + - Z.of_nat s - 53) (3 - 1024 - 53) - - Z.of_nat s)
      with (dg r - 53 + Z.of_nat s) by lia.
    unfold shr. destruct (dg r - 53 + Z.of_nat s) as [|p|p] eqn:E; [| |lia].
    - cbn [shr_record_of_loc]. f_equal; [|lia]. do 3 f_equal. lia.
    - rewrite iter_pos_nat. cbn [shr_record_of_loc].
      replace s with (Pos.to_nat p + Z.to_nat (53 - dg r))%nat at 1.
      + rewrite shr_iter. f_equal. lia.
      + lia. }
  rewrite E1. cbn [shr_m loc_of_shr_record round_nearest_even].
  set (m := sh (Z.to_nat (53 - dg r)) r).
  assert (E2 : shr_fexp fprec femax (Zpos m) (dg r - 53) loc_Exact =
    ({| shr_m := Zpos m; shr_r := false; shr_s := false |}, dg r - 53)).
  { unfold shr_fexp. cbn [Zdigits2]. fold (dg m). unfold m. rewrite sh_dg. unfold fexp, emin, fprec, femax.
    replace (Z.max (dg r + Z.of_nat (Z.to_nat (53 - dg r)) + (dg r - 53) - 53) (3 - 1024 - 53) - (dg r - 53)) with 0 by lia.
    reflexivity. }
  rewrite E2. cbn [shr_m]. unfold femax, fprec.
  destruct (Z.leb_spec (dg r - 53) (1024 - 53)) as [_|X]; [reflexivity|lia].
Qed.

(** the float of a positive integer below 2^53 *)
Definition flt (r : positive) : f64 := S754_finite false (sh (Z.to_nat (53 - dg r)) r) (dg r - 53).

Lemma f64_of_pos r : Zpos r < 2 ^ 53 -> f64_of (Npos r) = flt r.
Proof.
  intros H. apply dg_small in H. pose proof (dg_pos r). unfold f64_of. cbn [Z.of_N binary_normalize].
  unfold binary_round. fold (dg r). unfold fexp at 1, emin, fprec at 1 2, femax at 1.
  replace (Z.max (dg r + 0 - 53) (3 - 1024 - 53)) with (dg r - 53) by lia.
  unfold shl_align. destruct (dg r - 53 - 0) as [|p|p] eqn:E; [|lia|].
  - pose proof (round_exact r 0) as R. cbn [sh Nat.iter nat_rect Z.of_nat Z.opp] in R. change (sh 0 r) with r in R. apply R; lia.
  - pose proof (round_exact r (Pos.to_nat p)) as R.
    unfold shift_pos. rewrite Pos2Nat.inj_iter. fold (sh (Pos.to_nat p) r).
    replace (dg r - 53) with (- Z.of_nat (Pos.to_nat p)) at 1 by lia. apply R; lia.
Qed.
Lemma flt_mul p q : Zpos (p * q) < 2 ^ 53 -> fmul (flt p) (flt q) = flt (p * q).
Proof.
  intros H.
  assert (Hp : Zpos p <= Zpos (p * q)) by (rewrite Pos2Z.inj_mul; nia).
  assert (Hq : Zpos q <= Zpos (p * q)) by (rewrite Pos2Z.inj_mul; nia).
  pose proof (dg_small _ H). pose proof (dg_mono _ _ Hp). pose proof (dg_mono _ _ Hq).
  unfold fmul, flt at 1 2. cbn [SFmul xorb]. rewrite sh_mul.
  replace (dg p - 53 + (dg q - 53)) with (- Z.of_nat (Z.to_nat (53 - dg p) + Z.to_nat (53 - dg q))) by lia.
  apply round_exact; lia.
Qed.
Lemma u64_of_flt r : Zpos r < 2 ^ 53 -> u64_of (flt r) = Npos r.
Proof.
  intros H. pose proof (dg_small _ H) as D. unfold u64_of, flt.
  assert (E : match dg r - 53 with
    | Zneg p => Zpos (sh (Z.to_nat (53 - dg r)) r) / 2 ^ Zpos p
    | _ => Zpos (sh (Z.to_nat (53 - dg r)) r) * 2 ^ (dg r - 53) end = Zpos r).
  { rewrite sh_val, Z2Nat.id by lia. destruct (dg r - 53) as [|p|p] eqn:E; [|lia|].
    - replace (53 - dg r) with 0 by lia. cbn. lia.
    - replace (53 - dg r) with (Zpos p) by lia. apply Z.div_mul. lia. }
  rewrite E. cbn [Z.to_N]. destruct (N.ltb_spec (Npos r) two64) as [X|X]; auto.
  exfalso. unfold two64 in X. assert (Zpos r < 18446744073709551616) by (cbn in *; lia). lia.
Qed.

Close Scope Z_scope.
Open Scope N_scope.
Lemma mul_exact a b : 0 < a -> 0 < b -> a * b < 9007199254740992 ->
  u64_of (fmul (f64_of a) (f64_of b)) = a * b.
Proof.
  destruct a as [|p], b as [|q]; try lia. intros _ _ H.
  assert (Hm : (Zpos (p * q) < 2 ^ 53)%Z) by (change (2 ^ 53)%Z with 9007199254740992%Z; lia).
  assert (Hp : (Zpos p <= Zpos (p * q))%Z) by (rewrite Pos2Z.inj_mul; nia).
  assert (Hq : (Zpos q <= Zpos (p * q))%Z) by (rewrite Pos2Z.inj_mul; nia).
  rewrite !f64_of_pos by lia. rewrite flt_mul by assumption. now apply u64_of_flt.
Qed.
