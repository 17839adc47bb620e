(** Parsing fractions of any length: what a term contributes is its value rounded down to
    whole nanoseconds, give or take one nanosecond (the float64 arithmetic of dur.go:349-357). *)
From Coq Require Import String.
From Coq Require Import List NArith ZArith Bool Arith Lia QArith Qpower Lqa.
From Coq Require Import Floats.SpecFloat.
From Verif Require Import GoStr Dur DurSpec DurFloat DurProofs DurRound.
Import ListNotations.
Open Scope N_scope.
Open Scope list_scope.

(** ** the digits leadingFraction takes *)
Fixpoint taken (fs : list N) (x : N) (k : nat) : N * nat :=
  match fs with
  | [] => (x, k)
  | c :: fs' => if (two63 - 1) / 10 <? x then (x, k)
                else let y := vstep x c in if two63 <? y then (x, k) else taken fs' y (S k)
  end.
Lemma leadingFraction_over fs : forall r x sc, Forall digit fs -> no_digit_head r ->
  leadingFraction (fs ++ r) x sc true = (x, sc, r).
Proof.
  induction fs as [|c fs IH]; intros r x sc H Hr; cbn [app].
  - destruct r as [|c r]; cbn [leadingFraction]; auto. cbn in Hr. now rewrite Hr.
  - inversion H as [|? ? Hc Hfs]; subst. cbn [leadingFraction]. rewrite (proj2 (digit_is c) Hc). now apply IH.
Qed.
Lemma scaled_more k : forall j sc, scaled k (scaled j sc) = scaled (j + k) sc.
Proof.
  intros j. revert k. induction j as [|j IH]; intros k sc; [reflexivity|].
  change (scaled (S j) sc) with (fmul (scaled j sc) (f64_of 10)). rewrite scaled_S, IH. f_equal. lia.
Qed.
Lemma leadingFraction_taken fs : forall r x k, Forall digit fs -> no_digit_head r -> x <= two63 ->
  leadingFraction (fs ++ r) x (scaled k (f64_of 1)) false =
    (fst (taken fs x k), scaled (snd (taken fs x k)) (f64_of 1), r).
Proof.
  induction fs as [|c fs IH]; intros r x k H Hr Hx; cbn [app].
  - destruct r as [|c r]; cbn [leadingFraction]; auto. cbn in Hr. now rewrite Hr.
  - inversion H as [|? ? Hc Hfs]; subst. cbn [leadingFraction taken]. rewrite (proj2 (digit_is c) Hc).
    destruct (N.ltb_spec ((two63 - 1) / 10) x) as [L|L].
    { rewrite leadingFraction_over by assumption. reflexivity. }
    assert (E : x * 10 + c - 48 = vstep x c) by (unfold vstep, digit in *; lia). rewrite E.
    change ((two63 - 1) / 10) with 922337203685477580 in L.
    rewrite u64_id by (unfold vstep, digit in *; rewrite two64_v; lia). cbv zeta.
    destruct (N.ltb_spec two63 (vstep x c)) as [L2|L2].
    { rewrite leadingFraction_over by assumption. reflexivity. }
    change (fmul (scaled k (f64_of 1)) (f64_of 10)) with (scaled (S k) (f64_of 1)). now apply IH.
Qed.
(** what was taken is the fraction cut off; nothing is cut off before 18 digits are taken *)
Lemma taken_spec fs : forall x k, Forall digit fs -> x <= two63 -> x < 10 ^ N.of_nat k ->
  let '(f, j) := taken fs x k in
  exists r, (k <= j)%nat /\ (j + r = k + length fs)%nat /\ f <= two63 /\ f < 10 ^ N.of_nat j /\
    f * 10 ^ N.of_nat r <= fold_left vstep fs x < (f + 1) * 10 ^ N.of_nat r /\
    (r = 0%nat \/ 922337203685477580 <= f).
Proof.
  induction fs as [|c fs IH]; intros x k H Hx Hk; cbn [taken].
  - exists 0%nat. cbn. repeat split; auto; try lia.
  - inversion H as [|? ? Hc Hfs]; subst.
    assert (Stop : 922337203685477580 <= x -> exists r, (k <= k)%nat /\ (k + r = k + length (c :: fs))%nat /\ x <= two63 /\
      x < 10 ^ N.of_nat k /\ x * 10 ^ N.of_nat r <= fold_left vstep (c :: fs) x < (x + 1) * 10 ^ N.of_nat r /\
      (r = 0%nat \/ 922337203685477580 <= x)).
    { intros L. exists (length (c :: fs)). split; [lia|]. split; [lia|]. split; [assumption|]. split; [assumption|].
      split; [|now right]. rewrite vfold_lin. pose proof (vfold_lt (c :: fs) H). lia. }
    change ((two63 - 1) / 10) with 922337203685477580.
    destruct (N.ltb_spec 922337203685477580 x) as [L|L]; [apply Stop; lia|].
    cbv zeta. destruct (N.ltb_spec two63 (vstep x c)) as [L2|L2].
    { apply Stop. unfold vstep, digit in *. rewrite two63_v in *. lia. }
    specialize (IH (vstep x c) (S k) Hfs L2).
    assert (B : vstep x c < 10 ^ N.of_nat (S k)).
    { rewrite Nat2N.inj_succ, N.pow_succ_r'. unfold vstep, digit in *. lia. }
    specialize (IH B). destruct (taken fs (vstep x c) (S k)) as [f j].
    destruct IH as (r & A1 & A2 & A3 & A4 & A5 & A6). exists r. cbn [length fold_left]. repeat split; auto; try lia.
Qed.

(** ** the unit over the power of ten *)
Open Scope Q_scope.
Definition qerr (k : nat) : positive := if (k <=? 22)%nat then (2 ^ 51)%positive else (2 ^ 44)%positive.
Definition q_ok (n : N) (k : nat) (s : f64) : bool :=
  match fdiv (f64_of n) s with
  | S754_finite false m (Zneg j) =>
      ((digits2_pos m =? 53)%positive && (j <=? 900)%positive &&
       (Z.abs (Zpos m * 10 ^ Z.of_nat k - Z.of_N n * 2 ^ Zpos j) * Zpos (qerr k) <=? Z.of_N n * 2 ^ Zpos j)%Z)%bool
  | _ => false
  end.
Fixpoint q_all (n : N) (fuel k : nat) (s : f64) : bool :=
  match fuel with O => true | S fuel' => q_ok n k s && q_all n fuel' (S k) (fmul s (f64_of 10)) end.
Definition kmax : nat := 250.
Lemma q_all_in n fuel : forall k s, q_all n fuel k s = true -> forall i, (i < fuel)%nat -> q_ok n (k + i) (scaled i s) = true.
Proof.
  induction fuel as [|fuel IH]; intros k s H i Hi; [lia|]. cbn [q_all] in H. apply andb_true_iff in H. destruct H as [H1 H2].
  destruct i as [|i].
  - rewrite Nat.add_0_r. exact H1.
  - specialize (IH _ _ H2 i ltac:(lia)). rewrite scaled_S in IH. now replace (k + S i)%nat with (S k + i)%nat by lia.
Qed.
Lemma q_table : forallb (fun n => q_all n (S kmax) 0 (f64_of 1)) (map snd units) = true.
Proof. vm_compute. reflexivity. Qed.
Lemma quot_close u n k : In (u, n) units -> (k <= kmax)%nat ->
  exists m j, fdiv (f64_of n) (scaled k (f64_of 1)) = S754_finite false m (Zneg j) /\ dg m = 53%Z /\ (Zpos j <= 900)%Z /\
    close (1 # qerr k) (qv m (Zneg j)) (inject_Z (Z.of_N n) / inject_Z (10 ^ Z.of_nat k)).
Proof.
  intros Hu Hk. pose proof q_table as T. rewrite forallb_forall in T. specialize (T n (in_map snd _ _ Hu)).
  pose proof (q_all_in _ _ _ _ T k ltac:(lia)) as K. rewrite Nat.add_0_l in K. unfold q_ok in K.
  destruct (fdiv (f64_of n) (scaled k (f64_of 1))) as [| | |[] m [|j|j]]; try discriminate.
  apply andb_true_iff in K. destruct K as [K K3]. apply andb_true_iff in K. destruct K as [K1 K2].
  apply Pos.eqb_eq in K1. apply Pos.leb_le in K2. apply Z.leb_le in K3.
  exists m, j. split; [reflexivity|]. split; [unfold dg; now rewrite K1|]. split; [lia|].
  set (P := (10 ^ Z.of_nat k)%Z) in *. assert (HP : (0 < P)%Z) by (apply Z.pow_pos_nonneg; lia).
  set (R := (2 ^ Zpos j)%Z) in *. assert (HR : (0 < R)%Z) by (apply Z.pow_pos_nonneg; lia).
  assert (QP : 0 < inject_Z P) by (change 0 with (inject_Z 0); now rewrite <- Zlt_Qlt).
  assert (QR : 0 < inject_Z R) by (change 0 with (inject_Z 0); now rewrite <- Zlt_Qlt).
  assert (V : qv m (Zneg j) == inject_Z (Zpos m) / inject_Z R).
  { unfold qv, R. rewrite <- two_z by lia. change (Zneg j) with (- Zpos j)%Z. rewrite Qpower_opp. reflexivity. }
  set (D := qerr k) in *.
  set (X := (Zpos m * P)%Z) in *. set (Y := (Z.of_N n * R)%Z) in *.
  assert (A0 : (- Y <= (X - Y) * Zpos D <= Y)%Z) by (destruct (Z.abs_spec (X - Y)) as [[_ W]|[_ W]]; rewrite W in K3; nia).
  assert (A1 : (Y * (Zpos D - 1) <= X * Zpos D)%Z) by lia.
  assert (A2 : (X * Zpos D <= Y * (Zpos D + 1))%Z) by lia.
  unfold X, Y in A1, A2. clear A0 X Y K3.
  rewrite Zle_Qle in A1, A2. rewrite !inject_Z_mult in A1, A2.
  rewrite inject_Z_plus in A2. setoid_replace (inject_Z (Zpos D - 1)) with (inject_Z (Zpos D) - 1) in A1.
  2:{ unfold Zminus. rewrite inject_Z_plus. reflexivity. }
  assert (QD : 0 < inject_Z (Zpos D)) by (change 0 with (inject_Z 0); now rewrite <- Zlt_Qlt).
  assert (ED : (1 # D) == / inject_Z (Zpos D)) by reflexivity.
  unfold close. rewrite V, ED.
  set (N' := inject_Z (Z.of_N n)) in *. set (M := inject_Z (Zpos m)) in *. set (P' := inject_Z P) in *.
  set (R' := inject_Z R) in *. set (D' := inject_Z (Zpos D)) in *. change (inject_Z 1) with 1 in *.
  assert (S : 0 < P' * R' * D') by (apply Qmult_lt_0_compat; [now apply Qmult_lt_0_compat|assumption]).
  split; apply (Qmult_le_r _ _ _ S).
  - setoid_replace (N' / P' * (1 - / D') * (P' * R' * D')) with (N' * R' * (D' - 1)) by (field; split; lra).
    setoid_replace (M / R' * (P' * R' * D')) with (M * P' * D') by (field; lra). exact A1.
  - setoid_replace (N' / P' * (1 + / D') * (P' * R' * D')) with (N' * R' * (D' + 1)) by (field; split; lra).
    setoid_replace (M / R' * (P' * R' * D')) with (M * P' * D') by (field; lra). exact A2.
Qed.

(** ** one fraction *)
Definition fpart (n f : N) (k : nat) : N := u64_of (fmul (f64_of f) (fdiv (f64_of n) (scaled k (f64_of 1)))).

Lemma dg64 p : (Npos p <= two63)%N -> (dg p <= 64)%Z.
Proof.
  intros H. destruct (Z.le_gt_cases (dg p) 64) as [X|X]; auto. exfalso.
  pose proof (proj1 (dg_bounds p)) as B. assert (2 ^ 64 <= 2 ^ (dg p - 1))%Z by (apply Z.pow_le_mono_r; lia).
  unfold two63 in H. change (2 ^ 64)%Z with 18446744073709551616%Z in *. lia.
Qed.
(** the product is within a quarter of a nanosecond *)
Lemma fpart_close u n f k : In (u, n) units -> (k <= kmax)%nat -> (0 < f)%N -> (f <= two63)%N -> (f < 10 ^ N.of_nat k)%N ->
  let E := inject_Z (Z.of_N f) * (inject_Z (Z.of_N n) / inject_Z (10 ^ Z.of_nat k)) in
  let c := inject_Z (Z.of_N (fpart n f k)) in
  E - (5 # 4) < c /\ c <= E + (1 # 4).
Proof.
  intros Hu Hk Hf0 Hf Hfk E c. destruct (units_pos _ _ Hu) as [Hn0 Hn].
  destruct f as [|p]; [lia|].
  destruct (f64_of_close p (dg64 p Hf)) as (m1 & e1 & F1 & D1 & B1 & C1).
  destruct (quot_close u n k Hu Hk) as (m2 & j & F2 & D2 & B2 & C2).
  pose proof (dg_pos p). pose proof (dg64 p Hf).
  destruct (fmul_close m1 e1 m2 (Zneg j) D1 D2 ltac:(lia)) as (m & e & F3 & C3).
  assert (HP : (0 < 10 ^ Z.of_nat k)%Z) by (apply Z.pow_pos_nonneg; lia).
  set (A := inject_Z (Zpos p)) in *. set (B := inject_Z (Z.of_N n) / inject_Z (10 ^ Z.of_nat k)) in *.
  assert (QP : 0 < inject_Z (10 ^ Z.of_nat k)) by (change 0 with (inject_Z 0); now rewrite <- Zlt_Qlt).
  assert (PA : 0 <= A) by (change 0 with (inject_Z 0); unfold A; rewrite <- Zle_Qle; lia).
  assert (Pn : 0 <= inject_Z (Z.of_N n)) by (change 0 with (inject_Z 0); rewrite <- Zle_Qle; lia).
  assert (PB : 0 <= B) by (unfold B; apply Qle_shift_div_l; [assumption|rewrite Qmult_0_l; assumption]).
  assert (PE : 0 <= A * B) by now apply Qmult_le_0_compat.
  assert (Hd : 0 <= 1 # qerr k /\ (1 # qerr k) <= 1) by (unfold qerr; destruct (k <=? 22)%nat; split; discriminate).
  assert (E0 : 0 <= eps /\ eps <= 1) by (split; discriminate).
  pose proof (close_mul eps (1 # qerr k) _ _ _ _ (proj1 E0) (proj1 Hd) (proj2 Hd) (proj2 E0) PA PB C1 C2) as C4.
  set (d1 := eps + (1 # qerr k) + eps * (1 # qerr k)) in *.
  assert (Hd1 : 0 <= d1 /\ d1 <= 1).
  { unfold d1, qerr. destruct (k <=? 22)%nat; split; discriminate. }
  pose proof (close_trans eps d1 _ _ _ (proj1 E0) (proj1 Hd1) (proj2 E0) (proj2 Hd1) PE C3 C4) as C5.
  set (d2 := eps + d1 + eps * d1) in *.
  assert (Bound : A * B * d2 <= 1 # 4).
  { destruct (Nat.leb_spec k 22) as [L|L].
    - assert (d2 <= 1 # (2 ^ 49)).
      { unfold d2, d1, qerr. destruct (Nat.leb_spec k 22) as [_|X]; [discriminate|lia]. }
      assert (0 <= d2) by (unfold d2, d1, qerr; destruct (k <=? 22)%nat; discriminate).
      assert (A * B <= inject_Z 86400000000000).
      { unfold B. setoid_replace (A * (inject_Z (Z.of_N n) / inject_Z (10 ^ Z.of_nat k))) with ((A * inject_Z (Z.of_N n)) / inject_Z (10 ^ Z.of_nat k)) by (field; lra).
        apply Qle_shift_div_r; [assumption|]. unfold A. rewrite <- !inject_Z_mult, <- Zle_Qle.
        assert (Zpos p < 10 ^ Z.of_nat k)%Z.
        { apply N2Z.inj_lt in Hfk. rewrite N2Z.inj_pow, nat_N_Z in Hfk. exact Hfk. }
        nia. }
      apply Qle_trans with (inject_Z 86400000000000 * (1 # (2 ^ 49))); [|discriminate].
      apply Qle_trans with (inject_Z 86400000000000 * d2); [apply Qmult_le_compat_r; assumption|].
      rewrite (Qmult_comm _ d2), (Qmult_comm _ (1 # _)). apply Qmult_le_compat_r; [assumption|discriminate].
    - assert (d2 <= 1 # (2 ^ 43)).
      { unfold d2, d1, qerr. destruct (Nat.leb_spec k 22) as [X|_]; [lia|discriminate]. }
      assert (0 <= d2) by (unfold d2, d1, qerr; destruct (k <=? 22)%nat; discriminate).
      assert (A * B <= inject_Z 10000000000).
      { unfold B. setoid_replace (A * (inject_Z (Z.of_N n) / inject_Z (10 ^ Z.of_nat k))) with ((A * inject_Z (Z.of_N n)) / inject_Z (10 ^ Z.of_nat k)) by (field; lra).
        apply Qle_shift_div_r; [assumption|]. unfold A. rewrite <- !inject_Z_mult, <- Zle_Qle.
        assert (10 ^ 23 <= 10 ^ Z.of_nat k)%Z by (apply Z.pow_le_mono_r; lia).
        assert (Zpos p <= 9223372036854775808)%Z by (unfold two63 in Hf; lia).
        apply Z.le_trans with (9223372036854775808 * 86400000000000)%Z; [nia|].
        apply Z.le_trans with (10000000000 * 10 ^ 23)%Z; [vm_compute; discriminate|]. nia. }
      apply Qle_trans with (inject_Z 10000000000 * (1 # (2 ^ 43))); [|discriminate].
      apply Qle_trans with (inject_Z 10000000000 * d2); [apply Qmult_le_compat_r; assumption|].
      rewrite (Qmult_comm _ d2), (Qmult_comm _ (1 # _)). apply Qmult_le_compat_r; [assumption|discriminate]. }
  assert (EAB : E == A * B) by reflexivity.
  destruct C5 as [C5 C6].
  assert (L1 : A * B - (1 # 4) <= qv m e) by lra. assert (L2 : qv m e <= A * B + (1 # 4)) by lra.
  assert (Big : A * B <= inject_Z 86400000000000).
  { unfold B. setoid_replace (A * (inject_Z (Z.of_N n) / inject_Z (10 ^ Z.of_nat k))) with ((A * inject_Z (Z.of_N n)) / inject_Z (10 ^ Z.of_nat k)) by (field; lra).
    apply Qle_shift_div_r; [assumption|]. unfold A. rewrite <- !inject_Z_mult, <- Zle_Qle.
    assert (Zpos p < 10 ^ Z.of_nat k)%Z.
    { apply N2Z.inj_lt in Hfk. rewrite N2Z.inj_pow, nat_N_Z in Hfk. exact Hfk. }
    nia. }
  assert (Lt : qv m e < inject_Z (2 ^ 63)).
  { eapply Qle_lt_trans; [exact L2|]. apply Qle_lt_trans with (inject_Z 86400000000000 + (1 # 4)); [lra|reflexivity]. }
  destruct (u64_of_floor m e Lt) as [U1 U2].
  assert (Ec : fpart n (Npos p) k = u64_of (S754_finite false m e)).
  { unfold fpart. rewrite F1, F2. cbn [Z.opp] in F3. f_equal. exact F3. }
  unfold c. rewrite EAB, Ec. rewrite inject_Z_plus in U2. change (inject_Z 1) with 1 in U2. split; lra.
Qed.

(** ** more than 250 digits taken: next to nothing *)
Definition kinf : nat := 330.
Definition z_ok (n : N) (k : nat) (s : f64) : bool :=
  (k <=? kmax)%nat ||
  match fdiv (f64_of n) s with
  | S754_zero false => true
  | S754_finite false m (Zneg j) => (digits2_pos m <=? 53)%positive && (720 <=? j)%positive
  | _ => false
  end.
Fixpoint z_all (n : N) (fuel k : nat) (s : f64) : bool :=
  match fuel with O => true | S fuel' => z_ok n k s && z_all n fuel' (S k) (fmul s (f64_of 10)) end.
Lemma z_all_in n fuel : forall k s, z_all n fuel k s = true -> forall i, (i < fuel)%nat -> z_ok n (k + i) (scaled i s) = true.
Proof.
  induction fuel as [|fuel IH]; intros k s H i Hi; [lia|]. cbn [z_all] in H. apply andb_true_iff in H. destruct H as [H1 H2].
  destruct i as [|i].
  - rewrite Nat.add_0_r. exact H1.
  - specialize (IH _ _ H2 i ltac:(lia)). rewrite scaled_S in IH. now replace (k + S i)%nat with (S k + i)%nat by lia.
Qed.
Lemma z_table : forallb (fun n => z_all n (S kinf) 0 (f64_of 1)) (map snd units) = true.
Proof. vm_compute. reflexivity. Qed.
Lemma scaled_inf k : (kinf <= k)%nat -> scaled k (f64_of 1) = S754_infinity false.
Proof.
  intros H. replace k with (kinf + (k - kinf))%nat by lia. rewrite <- scaled_more.
  assert (E : scaled kinf (f64_of 1) = S754_infinity false) by (vm_compute; reflexivity). rewrite E. clear E.
  induction (k - kinf)%nat as [|i IH]; [reflexivity|].
  change (scaled (S i) (S754_infinity false)) with (fmul (scaled i (S754_infinity false)) (f64_of 10)). rewrite IH. reflexivity.
Qed.
Lemma fpart_tiny u n f k : In (u, n) units -> (kmax < k)%nat -> (0 < f)%N -> (f <= two63)%N -> fpart n f k = 0%N.
Proof.
  intros Hu Hk Hf0 Hf. destruct f as [|p]; [lia|].
  destruct (f64_of_close p (dg64 p Hf)) as (m1 & e1 & F1 & D1 & B1 & _).
  pose proof (dg64 p Hf) as Dp. unfold fpart. rewrite F1.
  destruct (le_lt_dec kinf k) as [L|L].
  { rewrite (scaled_inf k L).
    assert (E : fdiv (f64_of n) (S754_infinity false) = S754_zero false).
    { repeat (destruct Hu as [Hu|Hu]; [injection Hu as <- <-; vm_compute; reflexivity|]). destruct Hu. }
    rewrite E. reflexivity. }
  pose proof z_table as T. rewrite forallb_forall in T. specialize (T n (in_map snd _ _ Hu)).
  pose proof (z_all_in _ _ _ _ T k ltac:(lia)) as K. rewrite Nat.add_0_l in K. unfold z_ok in K.
  destruct (Nat.leb_spec k kmax) as [X|_]; [lia|]. cbn [orb] in K.
  destruct (fdiv (f64_of n) (scaled k (f64_of 1))) as [[]| | |[] m [|j|j]]; try discriminate; [reflexivity|].
  apply andb_true_iff in K. destruct K as [K1 K2]. apply Pos.leb_le in K1, K2.
  unfold fmul. cbn [SFmul xorb]. pose proof (dg_mul m1 m) as D. rewrite D1 in D.
  assert (dg m <= 53)%Z by (unfold dg; lia). apply round_tiny; lia.
Qed.

(** ** against the fraction's value, rounded down *)
Lemma frac_near u n fs : In (u, n) units -> Forall digit fs ->
  let '(f, k) := taken fs 0 0 in
  let c := if (0 <? f)%N then fpart n f k else 0%N in
  let E := (val fs * n / 10 ^ N.of_nat (length fs))%N in
  (E <= c + 1 /\ c <= E + 1)%N.
Proof.
  intros Hu Hfs. destruct (units_pos _ _ Hu) as [Hn0 Hn].
  pose proof (taken_spec fs 0 0 Hfs) as T. cbn [Nat.add] in T.
  specialize (T ltac:(rewrite two63_v; lia) ltac:(cbn; lia)). destruct (taken fs 0 0) as [f k].
  destruct T as (r & _ & Hr & Hf & Hk & Hv & Hcut). rewrite <- val_fold in Hv.
  set (K := length fs) in *.
  assert (EK : (10 ^ N.of_nat K = 10 ^ N.of_nat k * 10 ^ N.of_nat r)%N) by (rewrite <- N.pow_add_r; f_equal; lia).
  assert (Pk : (0 < 10 ^ N.of_nat k)%N) by (apply N.neq_0_lt_0, N.pow_nonzero; lia).
  assert (Pr : (0 < 10 ^ N.of_nat r)%N) by (apply N.neq_0_lt_0, N.pow_nonzero; lia).
  cbv zeta. destruct (N.ltb_spec 0 f) as [Hf0|Hf0].
  2:{ assert (f = 0)%N by lia. subst f. destruct Hcut as [->|X]; [|lia].
      replace (val fs) with 0%N by (cbn in Hv; lia). rewrite N.mul_0_l, N.div_0_l; lia. }
  destruct (le_lt_dec k kmax) as [Hkm|Hkm].
  2:{ rewrite (fpart_tiny u n f k Hu Hkm Hf0 Hf). rewrite EK.
      assert (E0 : (val fs * n / (10 ^ N.of_nat k * 10 ^ N.of_nat r) = 0)%N).
      { apply N.div_small.
        assert (A1 : (val fs * n <= (two63 + 1) * 10 ^ N.of_nat r * n)%N).
        { apply N.mul_le_mono_r. apply N.lt_le_incl. eapply N.lt_le_trans; [apply Hv|]. apply N.mul_le_mono_r. lia. }
        assert (A2 : ((two63 + 1) * n < 10 ^ N.of_nat k)%N).
        { apply N.lt_le_trans with (10 ^ 251)%N.
          - apply N.le_lt_trans with ((two63 + 1) * 86400000000000)%N; [apply N.mul_le_mono_l; lia|vm_compute; reflexivity].
          - apply N.pow_le_mono_r; unfold kmax in Hkm; lia. }
        eapply N.le_lt_trans; [exact A1|].
        replace ((two63 + 1) * 10 ^ N.of_nat r * n)%N with ((two63 + 1) * n * 10 ^ N.of_nat r)%N by ring.
        apply N.mul_lt_mono_pos_r; assumption. }
      rewrite E0. lia. }
  pose proof (fpart_close u n f k Hu Hkm Hf0 Hf Hk) as C. cbv zeta in C.
  set (c := fpart n f k) in *. destruct C as [C1 C2].
  assert (ZP : (0 < 10 ^ Z.of_nat k)%Z) by (apply Z.pow_pos_nonneg; lia).
  assert (QP : 0 < inject_Z (10 ^ Z.of_nat k)) by (change 0 with (inject_Z 0); now rewrite <- Zlt_Qlt).
  assert (EP : (10 ^ Z.of_nat k = Z.of_N (10 ^ N.of_nat k))%Z) by (rewrite N2Z.inj_pow, nat_N_Z; reflexivity).
  (* E' in integers *)
  assert (I1 : (4 * Z.of_N f * Z.of_N n - 5 * 10 ^ Z.of_nat k < 4 * Z.of_N c * 10 ^ Z.of_nat k)%Z).
  { rewrite Zlt_Qlt. unfold Zminus. rewrite inject_Z_plus, inject_Z_opp, !inject_Z_mult.
    set (F := inject_Z (Z.of_N f)) in *. set (N' := inject_Z (Z.of_N n)) in *. set (P := inject_Z (10 ^ Z.of_nat k)) in *.
    set (c' := inject_Z (Z.of_N c)) in *. change (inject_Z 4) with 4. change (inject_Z 5) with 5.
    apply (Qmult_lt_r _ _ _ QP) in C1.
    setoid_replace ((F * (N' / P) - (5 # 4)) * P) with (F * N' - (5 # 4) * P) in C1 by (field; lra). lra. }
  assert (I2 : (4 * Z.of_N c * 10 ^ Z.of_nat k <= 4 * Z.of_N f * Z.of_N n + 10 ^ Z.of_nat k)%Z).
  { rewrite Zle_Qle. rewrite inject_Z_plus, !inject_Z_mult.
    set (F := inject_Z (Z.of_N f)) in *. set (N' := inject_Z (Z.of_N n)) in *. set (P := inject_Z (10 ^ Z.of_nat k)) in *.
    set (c' := inject_Z (Z.of_N c)) in *. change (inject_Z 4) with 4.
    apply (Qmult_le_r _ _ _ QP) in C2.
    setoid_replace ((F * (N' / P) + (1 # 4)) * P) with (F * N' + (1 # 4) * P) in C2 by (field; lra). lra. }
  rewrite EP in I1, I2. rewrite EK. set (P := (10 ^ N.of_nat k)%N) in *. set (R := (10 ^ N.of_nat r)%N) in *.
  clear C1 C2 ZP QP EP EK.
  assert (J1 : (4 * f * n < 4 * c * P + 5 * P)%N) by lia.
  assert (J2 : (4 * c * P <= 4 * f * n + P)%N) by lia.
  (* the digits cut off are worth less than a quarter of a nanosecond *)
  assert (Cut : r = 0%nat \/ (4 * n < P)%N).
  { destruct Hcut as [X|X]; [now left|right].
    assert (922337203685477580 < P)%N by (eapply N.le_lt_trans; eassumption). lia. }
  pose proof (N.mul_div_le (val fs * n) (P * R) ltac:(lia)) as D1.
  pose proof (N.mul_succ_div_gt (val fs * n) (P * R) ltac:(lia)) as D2.
  set (E := (val fs * n / (P * R))%N) in *.
  split.
  - (* 4 E P R <= 4 v n < 4 (f + 1) n R (or f when nothing was cut off) < (4 c P + 6 P) R *)
    assert (4 * val fs * n < (4 * c * P + 6 * P) * R)%N.
    { destruct Cut as [->|Cut].
      - assert (ER : R = 1%N) by reflexivity. rewrite ER in *. assert (Ef : val fs = f) by lia. rewrite Ef, N.mul_1_r. lia.
      - assert (A : (val fs * n <= (f + 1) * R * n)%N) by (apply N.mul_le_mono_r; lia).
        assert (B : ((4 * f * n + 4 * n) * R < (4 * c * P + 6 * P) * R)%N) by (apply N.mul_lt_mono_pos_r; lia). lia. }
    assert (A : (4 * E * (P * R) < (4 * c + 6) * (P * R))%N) by lia.
    apply N.mul_lt_mono_pos_r in A; lia.
  - assert (A : (f * R * n <= val fs * n)%N) by (apply N.mul_le_mono_r; lia).
    assert (B : (4 * c * P * R <= (4 * f * n + P) * R)%N) by (apply N.mul_le_mono_r; lia).
    assert (C : (4 * c * (P * R) < (4 * E + 5) * (P * R))%N) by lia.
    apply N.mul_lt_mono_pos_r in C; lia.
Qed.

(** ** one term *)
Open Scope N_scope.
Definition fval (n : N) (fs : list N) : N :=
  let '(f, k) := taken fs 0 0 in if 0 <? f then fpart n f k else 0.
(** what the code adds for a term *)
Definition pval (t : term) : N := val (t_int t) * t_ns t + fval (t_ns t) (frac_digits t).

Lemma pval_near t : good_term t -> tval t <= pval t + 1 /\ pval t <= tval t + 1.
Proof.
  intros (Hi & Hf & _ & Hu). pose proof (frac_near _ _ _ Hu Hf) as F. unfold tval, pval, fval.
  destruct (taken (frac_digits t) 0 0) as [f k]. cbv zeta in F. lia.
Qed.

Lemma parse_term_gen t r fuel d : good_term t -> term_head r -> d <= two63 ->
  parseLoop (S fuel) (tstr t ++ r) d =
    if two63 <? pval t then Ok None
    else let d1 := u64 (d + pval t) in if two63 <? d1 then Ok None else parseLoop fuel r d1.
Proof.
  intros (Hi & Hf & Hne & Hu) Hr Hd.
  destruct (units_chars _ _ Hu) as [Hu1 Hu2]. destruct (units_pos _ _ Hu) as [Hn1 Hn2].
  pose proof (frac_near _ _ _ Hu Hf) as FN.
  unfold pval, fval in *.
  destruct t as [ds fr u n]. unfold tstr, frac_digits in *. cbn [t_int t_frac t_unit t_ns] in *.
  set (fs := match fr with Some f => f | None => [] end) in *.
  pose proof (vfold_lt fs Hf) as Vf. rewrite <- val_fold in Vf.
  pose proof (leadingFraction_taken fs) as LF.
  set (s := (ds ++ (match fr with Some f => 46 :: f | None => [] end) ++ u) ++ r).
  assert (Es : s = ds ++ ((match fr with Some f => 46 :: f | None => [] end) ++ u ++ r))
    by (unfold s; rewrite <- !app_assoc; reflexivity).
  assert (Un : exists u0 u', u = u0 :: u' /\ (u0 =? 46) || is_digit u0 = false).
  { destruct u as [|u0 u']; [congruence|]. inversion Hu2; subst. eauto. }
  destruct Un as (u0 & u' & Eu & Hu0). pose proof Hu0 as Hu0'. apply orb_false_iff in Hu0'. destruct Hu0' as [U1 U2].
  assert (Hd1 : no_digit_head ((match fr with Some f => 46 :: f | None => [] end) ++ u ++ r)).
  { destruct fr; cbn; auto. rewrite Eu. cbn. exact U2. }
  assert (Hhead : exists c0 t0, s = c0 :: t0 /\ (c0 =? 46) || is_digit c0 = true).
  { rewrite Es. destruct ds as [|c ds].
    - destruct fr as [f|]; [|cbn in Hne; destruct Hne as [X|X]; exfalso; now apply X].
      cbn. do 2 eexists. split; reflexivity.
    - cbn. do 2 eexists. split; [reflexivity|]. inversion Hi; subst. rewrite (proj2 (digit_is c)); auto. apply orb_true_r. }
  destruct Hhead as (c0 & t0 & Ec & Hc0). rewrite Ec. cbn [parseLoop]. rewrite Hc0. cbn [negb]. rewrite <- Ec, Es.
  rewrite leadingInt_spec by (auto; lia). rewrite <- val_fold.
  set (fv := let '(f, k) := taken fs 0 0 in if 0 <? f then fpart n f k else 0) in *.
  destruct (N.ltb_spec two63 (val ds)) as [L|L].
  { destruct (N.ltb_spec two63 (val ds * n + fv)); auto. nia. }
  set (rest := ((match fr with Some f => 46 :: f | None => [] end) ++ u ++ r) : gostring).
  assert (E2 : exists post, (match rest return (N * f64 * gostring * bool) with
     | [] => (0, f64_of 1, rest, false)
     | c1 :: t1 => if c1 =? 46 then
         let '(f, scale, s2) := leadingFraction t1 0 (f64_of 1) false in
         (f, scale, s2, negb (length t1 =? length s2)%nat)
       else (0, f64_of 1, rest, false) end) =
       (fst (taken fs 0 0), scaled (snd (taken fs 0 0)) (f64_of 1), u ++ r, post) /\
     post = negb (is_nil fs)).
  { unfold rest. subst fs. destruct fr as [f|].
    - cbn [app]. rewrite N.eqb_refl. change (f64_of 1) with (scaled 0 (f64_of 1)) at 1. rewrite LF; auto.
      + eexists. split; [reflexivity|]. rewrite app_length.
        destruct f; cbn [is_nil negb length]; [now rewrite Nat.eqb_refl|].
        destruct (Nat.eqb_spec (S (length f) + length (u ++ r)) (length (u ++ r))); [lia|reflexivity].
      + rewrite Eu. cbn. exact U2.
      + rewrite two63_v. lia.
    - cbn [app]. rewrite Eu. cbn [app]. rewrite U1. eexists. split; reflexivity. }
  destruct E2 as (post & E2 & Epost). rewrite E2. clear E2.
  assert (Epre : negb (length (ds ++ rest) =? length rest)%nat = negb (is_nil ds)).
  { rewrite app_length. destruct ds; cbn [is_nil negb length]; [now rewrite Nat.eqb_refl|].
    destruct (Nat.eqb_spec (S (length ds) + length rest) (length rest)); [lia|reflexivity]. }
  rewrite Epre, Epost, !negb_involutive.
  replace (is_nil ds && is_nil fs) with false.
  2:{ destruct ds; auto. destruct fs; auto. cbn in Hne. destruct Hne as [X|X]; exfalso; now apply X. }
  rewrite span_unit_spec by assumption.
  replace (is_nil u) with false by (rewrite Eu; reflexivity).
  rewrite (proj1 (unitMap_in u n) Hu).
  destruct (N.ltb_spec (two63 / n) (val ds)) as [L2|L2].
  { destruct (N.ltb_spec two63 (val ds * n + fv)) as [|X]; auto. exfalso.
    pose proof (N.mul_succ_div_gt two63 n ltac:(lia)). nia. }
  assert (B1 : val ds * n <= two63).
  { pose proof (N.mul_div_le two63 n ltac:(lia)). nia. }
  rewrite (u64_id (val ds * n)) by (rewrite two63_v, two64_v in *; lia).
  assert (Bf : fv <= n + 1).
  { destruct (taken fs 0 0) as [f k]. cbv zeta in FN. destruct FN as [_ FN].
    assert (val fs * n / 10 ^ N.of_nat (length fs) <= n).
    { apply N.div_le_upper_bound; [lia|]. nia. }
    unfold fv. lia. }
  assert (E3 : (if 0 <? fst (taken fs 0 0)
     then u64 (val ds * n + u64_of (fmul (f64_of (fst (taken fs 0 0))) (fdiv (f64_of n) (scaled (snd (taken fs 0 0)) (f64_of 1)))))
     else val ds * n) = val ds * n + fv).
  { unfold fv in *. destruct (taken fs 0 0) as [f k]. cbn [fst snd]. revert Bf. destruct (N.ltb_spec 0 f) as [P|P]; intros Bf.
    - apply u64_id. rewrite two63_v, two64_v in *. lia.
    - lia. }
  rewrite E3.
  destruct (N.ltb_spec two63 (val ds * n + fv)) as [L3|L3].
  - destruct (N.ltb_spec 0 (fst (taken fs 0 0))) as [P|P]; cbn [andb]; auto. exfalso.
    unfold fv in *. destruct (taken fs 0 0) as [f k]. cbn [fst] in P. rewrite (proj2 (N.ltb_ge 0 f) P) in L3. lia.
  - rewrite andb_false_r. reflexivity.
Qed.
(** a whole number of nanoseconds is taken exactly *)
Lemma pval_exact t : good_term t -> exact_term t -> pval t = tval t.
Proof.
  intros G X. pose proof G as (Hi & Hf & _ & Hu). destruct X as [q Eq]. rewrite (tval_exact t q Eq). unfold pval, fval. f_equal.
  destruct (div_exact _ _ _ _ Hu Eq) as [Hk Hdiv]. destruct (units_pos _ _ Hu) as [Hn1 Hn2].
  set (fs := frac_digits t) in *. set (n := t_ns t) in *.
  pose proof (vfold_lt fs Hf) as Vf. rewrite <- val_fold in Vf.
  assert (Hq : q <> 0) by (intros ->; lia).
  assert (Bf : val fs < 100000000000000).
  { eapply N.lt_le_trans; [exact Vf|]. assert (10 ^ N.of_nat (length fs) <= n) by (rewrite Eq; nia). lia. }
  assert (T : taken fs 0 0 = (val fs, length fs)).
  { pose proof (taken_spec fs 0 0 Hf) as T. specialize (T ltac:(rewrite two63_v; lia) ltac:(cbn; lia)).
    destruct (taken fs 0 0) as [f k]. destruct T as (r & _ & T2 & _ & _ & T5 & T6). rewrite <- val_fold in T5.
    destruct T6 as [->|T6].
    - f_equal; [cbn in T5; lia|lia].
    - exfalso. assert (1 <= 10 ^ N.of_nat r) by (pose proof (N.pow_nonzero 10 (N.of_nat r)); lia). nia. }
  rewrite T. destruct (N.ltb_spec 0 (val fs)) as [P|P].
  - unfold fpart. rewrite scaled_pow by exact Hk. rewrite Hdiv.
    assert (Bn : val fs * q < n) by (rewrite Eq; rewrite (N.mul_comm q); apply N.mul_lt_mono_pos_r; lia).
    apply mul_exact; lia.
  - replace (val fs) with 0 by lia. reflexivity.
Qed.

(** ** a whole text *)
Lemma parse_loop_gen ts : forall fuel d,
  Forall good_term ts -> d <= two63 ->
  (d + total (map pval ts) < two64 \/ Forall (fun v => v <> two63) (map pval ts)) -> (length ts <= fuel)%nat ->
  parseLoop fuel (dstr ts) d =
    Ok (if two63 <? d + total (map pval ts) then None else Some (d + total (map pval ts))).
Proof.
  induction ts as [|t ts IH]; intros fuel d G Hd Hw Hf.
  - cbn [map total fold_right]. rewrite N.add_0_r. destruct (N.ltb_spec two63 d); [lia|]. destruct fuel; reflexivity.
  - destruct fuel as [|fuel]; [cbn in Hf; lia|]. inversion G; subst.
    change (dstr (t :: ts)) with (tstr t ++ dstr ts).
    rewrite parse_term_gen; auto using dstr_head. cbn [map total fold_right] in *. fold (total (map pval ts)) in *.
    destruct (N.ltb_spec two63 (pval t)) as [L|L].
    { destruct (N.ltb_spec two63 (d + (pval t + total (map pval ts)))); auto. lia. }
    assert (Nw : d + pval t < two64).
    { destruct Hw as [Hw|Hw]; [lia|]. inversion Hw as [|? ? X _]; subst. rewrite two63_v, two64_v in *. lia. }
    cbv zeta. rewrite u64_id by assumption.
    destruct (N.ltb_spec two63 (d + pval t)) as [L2|L2].
    { destruct (N.ltb_spec two63 (d + (pval t + total (map pval ts)))); auto. lia. }
    rewrite IH; auto.
    + now rewrite N.add_assoc.
    + destruct Hw as [Hw|Hw]; [left; lia|right; now inversion Hw].
    + cbn in Hf. lia.
Qed.

Lemma pvals_near ts : Forall good_term ts -> Forall2 near ts (map pval ts).
Proof.
  induction ts as [|t ts IH]; intros G; [constructor|]. inversion G; subst. cbn. constructor; auto.
  destruct (pval_near t) as [A B]; auto. split; [auto|split; [auto|]]. intros X. now apply pval_exact.
Qed.
Theorem parse_terms_near sg neg ts :
  sign_of sg neg -> ts <> [] -> Forall good_term ts ->
  exists vs, Forall2 near ts vs /\
    (total vs < two64 \/ Forall (fun v => v <> two63) vs ->
     ParseDuration (sg ++ dstr ts) =
       Ok (if neg then if total vs <=? two63 then Some (- Z.of_N (total vs))%Z else None
           else if total vs <? two63 then Some (Z.of_N (total vs)) else None)).
Proof.
  intros Hs Hne G. exists (map pval ts). split; [now apply pvals_near|]. intros Hw.
  destruct (dstr_not_zero ts G Hne) as [D1 D2].
  assert (Es : strip_sign (sg ++ dstr ts) = (neg, dstr ts)).
  { destruct Hs as [[-> ->]|[[-> ->]|[-> ->]]]; cbn [app]; auto.
    pose proof (dstr_head ts G) as H. destruct (dstr ts) as [|c t] eqn:Ed; auto. cbn in H. unfold strip_sign.
    destruct (N.eqb_spec c 45); [subst; discriminate|]. destruct (N.eqb_spec c 43); [subst; discriminate|]. reflexivity. }
  unfold ParseDuration. rewrite Es.
  replace (str_eqb (dstr ts) (s2b "0")) with false.
  2:{ symmetry. destruct (str_eqb (dstr ts) (s2b "0")) eqn:X; auto. apply str_eqb_eq in X. exfalso. apply D2. exact X. }
  replace (is_nil (dstr ts)) with false by (destruct (dstr ts); [congruence|reflexivity]).
  set (v := total (map pval ts)) in *.
  rewrite parse_loop_gen; auto using dstr_len; try (rewrite two63_v; lia).
  fold v. rewrite N.add_0_l. cbn [bind]. f_equal.
  destruct (N.ltb_spec two63 v) as [L|L].
  - destruct neg; [destruct (N.leb_spec v two63); [lia|reflexivity]|
                   destruct (N.ltb_spec v two63); [lia|reflexivity]].
  - destruct neg.
    + destruct (N.leb_spec v two63); [|lia]. f_equal. unfold dur_of, neg64.
      destruct (N.leb_spec two63 v).
      * replace v with two63 by lia. reflexivity.
      * destruct (Z.eqb_spec (Z.of_N v) (- Z.of_N two63)); [|reflexivity].
        rewrite two63_v in *. lia.
    + destruct (N.ltb_spec v two63).
      * destruct (N.ltb_spec (two63 - 1) v); [rewrite two63_v in *; lia|]. f_equal. unfold dur_of.
        destruct (N.leb_spec two63 v); [lia|reflexivity].
      * replace v with two63 by lia. reflexivity.
Qed.
(** the number of terms bounds the error *)
Lemma total_near ts vs : Forall2 near ts vs ->
  dsum ts <= total vs + N.of_nat (length ts) /\ total vs <= dsum ts + N.of_nat (length ts).
Proof.
  induction 1 as [|t v ts vs (A & B & _) _ IH]; [cbn; lia|].
  cbn [dsum fold_right total length]. fold (dsum ts). fold (total vs). rewrite Nat2N.inj_succ. lia.
Qed.
Theorem parse_terms_error sg neg ts :
  sign_of sg neg -> ts <> [] -> Forall good_term ts ->
  dsum ts + N.of_nat (length ts) < two63 ->
  exists v, ParseDuration (sg ++ dstr ts) = Ok (Some (if neg then - Z.of_N v else Z.of_N v)%Z) /\
    dsum ts <= v + N.of_nat (length ts) /\ v <= dsum ts + N.of_nat (length ts).
Proof.
  intros Hs Hne G B. destruct (parse_terms_near sg neg ts Hs Hne G) as (vs & N1 & P).
  destruct (total_near ts vs N1) as [T1 T2]. exists (total vs). split; [|split; assumption].
  rewrite P by (left; rewrite two63_v, two64_v in *; lia).
  destruct neg.
  - destruct (N.leb_spec (total vs) two63); [reflexivity|lia].
  - destruct (N.ltb_spec (total vs) two63); [reflexivity|lia].
Qed.
