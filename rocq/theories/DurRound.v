(** How far binary64's rounding can be off: a rounded positive number keeps its 53 leading
    bits, give or take one unit in the last place.  Values are rationals. *)
From Coq Require Import List NArith ZArith Bool Arith Lia QArith Qpower Lqa.
From Coq Require Import Floats.SpecFloat.
From Verif Require Import GoStr Dur DurFloat.
Import ListNotations.
Open Scope Z_scope.

(** ** the bits shifted out *)
Lemma shr1_m r : 0 <= shr_m r -> shr_m (shr_1 r) = shr_m r / 2.
Proof.
  destruct r as [m a b]. cbn. intros H. destruct m as [|[p|p|]|p]; try reflexivity; try lia.
  - cbn [shr_m]. rewrite (Pos2Z.inj_xI p). rewrite Z.mul_comm, Z.div_add_l by lia. cbn. lia.
  - cbn [shr_m]. rewrite (Pos2Z.inj_xO p). rewrite Z.mul_comm, Z.div_mul by lia. reflexivity.
Qed.
Lemma shr_iter_m n : forall r, 0 <= shr_m r -> shr_m (Nat.iter n shr_1 r) = shr_m r / 2 ^ Z.of_nat n.
Proof.
  induction n as [|n IH]; intros r H; [cbn; now rewrite Z.div_1_r|].
  change (Nat.iter (S n) shr_1 r) with (shr_1 (Nat.iter n shr_1 r)).
  rewrite shr1_m; rewrite IH by assumption.
  - rewrite Nat2Z.inj_succ, Z.pow_succ_r, (Z.mul_comm 2), Z.div_div by (try apply Z.pow_pos_nonneg; lia). reflexivity.
  - apply Z.div_pos; [assumption|apply Z.pow_pos_nonneg; lia].
Qed.
Lemma loc_m m l : shr_m (shr_record_of_loc m l) = m.
Proof. destruct l as [|[]]; reflexivity. Qed.
Lemma rne_bounds m l : m <= round_nearest_even m l <= m + 1.
Proof. destruct l as [|[]]; cbn; try lia. destruct (Z.even m); lia. Qed.

Lemma dg_eq p n : 2 ^ (n - 1) <= Zpos p < 2 ^ n -> 1 <= n -> dg p = n.
Proof.
  intros [A B] Hn. pose proof (dg_bounds p) as [C D]. pose proof (dg_pos p).
  destruct (Z.lt_trichotomy (dg p) n) as [X|[X|X]]; auto; exfalso.
  - assert (2 ^ dg p <= 2 ^ (n - 1)) by (apply Z.pow_le_mono_r; lia). lia.
  - assert (2 ^ n <= 2 ^ (dg p - 1)) by (apply Z.pow_le_mono_r; lia). lia.
Qed.

(** the leading 53 bits, and the rounded number: those bits or one more *)
Lemma round_bits mx ex lx : 53 <= dg mx -> -1000 <= ex + dg mx <= 1000 ->
  exists m e d, binary_round_aux fprec femax false (Zpos mx) ex lx = S754_finite false m e /\
    dg m = 53 /\ ex + dg mx - 53 <= e <= ex + dg mx - 52 /\ 0 <= d <= 1 /\
    Zpos m * 2 ^ (e - (ex + dg mx - 53)) = Zpos mx / 2 ^ (dg mx - 53) + d.
Proof.
  intros H1 H2. unfold binary_round_aux.
  set (n := dg mx - 53). set (b := Zpos mx / 2 ^ n).
  assert (Hn : 0 <= n) by (unfold n; lia).
  assert (Pn : 0 < 2 ^ n) by (apply Z.pow_pos_nonneg; lia).
  pose proof (dg_bounds mx) as [B1 B2].
  assert (Hb : 2 ^ 52 <= b < 2 ^ 53).
  { unfold b. split.
    - apply Z.div_le_lower_bound; auto. rewrite <- Z.pow_add_r by lia. replace (n + 52) with (dg mx - 1) by (unfold n; lia). auto.
    - apply Z.div_lt_upper_bound; auto. rewrite <- Z.pow_add_r by lia. replace (n + 53) with (dg mx) by (unfold n; lia). auto. }
  assert (E1 : exists r, shr_fexp fprec femax (Zpos mx) ex lx = (r, ex + n) /\ shr_m r = b).
  { unfold shr_fexp. cbn [Zdigits2]. fold (dg mx). unfold fexp, emin, fprec, femax.
    replace (Z.max (dg mx + ex - 53) (3 - 1024 - 53) - ex) with n by (unfold n; lia).
    unfold shr. destruct n as [|p|p] eqn:En; [| |lia].
    - eexists. split; [f_equal; lia|]. rewrite loc_m. unfold b. now rewrite Z.pow_0_r, Z.div_1_r.
    - eexists. split; [reflexivity|]. rewrite iter_pos_nat, shr_iter_m by (rewrite loc_m; lia).
      rewrite loc_m, positive_nat_Z. reflexivity. }
  destruct E1 as (r & E1 & Er). rewrite E1, Er.
  pose proof (rne_bounds b (loc_of_shr_record r)) as Hr.
  set (x := round_nearest_even b (loc_of_shr_record r)) in *.
  destruct x as [|p|p] eqn:Ex; try lia. unfold shr_fexp. cbn [Zdigits2]. fold (dg p). cbn [shr_record_of_loc].
  unfold fexp, emin, fprec, femax.
  assert (Hp : Zpos p < 2 ^ 53 \/ Zpos p = 2 ^ 53) by lia. destruct Hp as [Hp|Hp].
  - assert (D : dg p = 53) by (apply dg_eq; [change (53 - 1) with 52; lia|lia]).
    replace (Z.max (dg p + (ex + n) - 53) (3 - 1024 - 53) - (ex + n)) with 0 by (unfold n in *; lia).
    cbn [shr shr_m]. destruct (Z.leb_spec (ex + n) (1024 - 53)) as [_|X]; [|unfold n in *; lia].
    exists p, (ex + n), (Zpos p - b). split; [reflexivity|]. repeat split; auto; try (unfold n; lia).
    replace (ex + n - (ex + dg mx - 53)) with 0 by (unfold n; lia). rewrite Z.pow_0_r. lia.
  - assert (D : dg p = 54) by (apply dg_eq; [change (54 - 1) with 53; change (2 ^ 54) with (2 * 2 ^ 53); lia|lia]).
    replace (Z.max (dg p + (ex + n) - 53) (3 - 1024 - 53) - (ex + n)) with 1 by (unfold n in *; lia).
    cbn [shr]. rewrite iter_pos_nat. change (Pos.to_nat 1) with 1%nat.
    destruct p as [p|p|]; [| |exfalso; clear - Hp; cbn in Hp; lia].
    { exfalso. rewrite Pos2Z.inj_xI in Hp. change (2 ^ 53) with (2 * 2 ^ 52) in Hp. lia. }
    cbn [Nat.iter nat_rect shr_1 shr_m].
    destruct (Z.leb_spec (ex + n + 1) (1024 - 53)) as [_|X]; [|unfold n in *; lia].
    exists p, (ex + n + 1), (Zpos (xO p) - b). split; [reflexivity|].
    assert (D' : dg p = 53) by (unfold dg in *; cbn [digits2_pos] in D; lia).
    repeat split; auto; try (unfold n; lia).
    replace (ex + n + 1 - (ex + dg mx - 53)) with 1 by (unfold n; lia). rewrite Z.pow_1_r. rewrite (Pos2Z.inj_xO p). lia.
Qed.

(** ** values *)
Open Scope Q_scope.
Definition qv (m : positive) (e : Z) : Q := inject_Z (Zpos m) * 2 ^ e.
Lemma two_pos e : 0 < 2 ^ e.
Proof. apply Qpower_0_lt. lra. Qed.
Lemma two_add a b : 2 ^ (a + b) == 2 ^ a * 2 ^ b.
Proof. apply Qpower_plus. intros X. discriminate X. Qed.
Lemma two_z n : (0 <= n)%Z -> 2 ^ n == inject_Z (2 ^ n).
Proof. intros H. rewrite Zpower_Qpower by assumption. reflexivity. Qed.
Lemma qv_pos m e : 0 < qv m e.
Proof. unfold qv. apply Qmult_lt_0_compat; [|apply two_pos]. change 0 with (inject_Z 0). rewrite <- Zlt_Qlt. lia. Qed.

(** [x] is [a] up to the relative error [d] *)
Definition close (d x a : Q) : Prop := a * (1 - d) <= x /\ x <= a * (1 + d).
Definition eps : Q := 1 # (2 ^ 52).

Lemma qv_shift m e k : (0 <= k)%Z -> qv m (e + k) == inject_Z (Zpos m * 2 ^ k) * 2 ^ e.
Proof. intros H. unfold qv. rewrite two_add, inject_Z_mult, (two_z k H). ring. Qed.

(** rounding the number [mx * 2^ex] *)
Lemma round_close mx ex lx : (53 <= dg mx)%Z -> (-1000 <= ex + dg mx <= 1000)%Z ->
  exists m e, binary_round_aux fprec femax false (Zpos mx) ex lx = S754_finite false m e /\
    dg m = 53%Z /\ (ex + dg mx - 53 <= e <= ex + dg mx - 52)%Z /\ close eps (qv m e) (qv mx ex).
Proof.
  intros H1 H2. destruct (round_bits mx ex lx H1 H2) as (m & e & d & E & Hm & He & Hd & V).
  exists m, e. split; [exact E|]. split; [exact Hm|]. split; [exact He|].
  set (n := (dg mx - 53)%Z) in *. set (b := (Zpos mx / 2 ^ n)%Z) in *.
  assert (Hn : (0 <= n)%Z) by (unfold n; lia).
  assert (Pn : (0 < 2 ^ n)%Z) by (apply Z.pow_pos_nonneg; lia).
  assert (Q1 : qv m e == inject_Z (b + d) * 2 ^ (ex + n)).
  { replace e with ((ex + n) + (e - (ex + n)))%Z at 1 by lia. rewrite qv_shift by (unfold n in *; lia).
    replace (ex + dg mx - 53)%Z with (ex + n)%Z in V by (unfold n; lia). rewrite V. reflexivity. }
  assert (Q2 : qv mx ex == inject_Z (Zpos mx) * 2 ^ ex) by reflexivity.
  assert (Q3 : 2 ^ (ex + n) == inject_Z (2 ^ n) * 2 ^ ex) by (rewrite two_add, (two_z n Hn); ring).
  assert (B0 : (2 ^ 52 <= b)%Z).
  { apply Z.div_le_lower_bound; auto. rewrite <- Z.pow_add_r by lia. replace (n + 52)%Z with (dg mx - 1)%Z by (unfold n; lia).
    apply dg_bounds. }
  pose proof (Z.div_mod (Zpos mx) (2 ^ n) ltac:(lia)) as DM. fold b in DM.
  pose proof (Z.mod_pos_bound (Zpos mx) (2 ^ n) Pn) as MB.
  set (P := (2 ^ n)%Z) in *. set (x := Zpos mx) in *.
  assert (L : (b * P <= x)%Z) by lia. assert (U : (x <= (b + 1) * P)%Z) by lia.
  assert (Pe : 0 < 2 ^ ex) by apply two_pos.
  unfold close. rewrite Q1, Q2, Q3.
  assert (A1 : (x * (2 ^ 52 - 1) <= (b + d) * P * 2 ^ 52)%Z) by nia.
  assert (A2 : ((b + d) * P * 2 ^ 52 <= x * (2 ^ 52 + 1))%Z) by nia.
  split.
  - setoid_replace (inject_Z x * 2 ^ ex * (1 - eps)) with ((inject_Z (x * (2 ^ 52 - 1)) * (1 # (2 ^ 52))) * 2 ^ ex).
    2:{ rewrite inject_Z_mult. unfold eps. setoid_replace (inject_Z (2 ^ 52 - 1)) with (inject_Z (2 ^ 52) - 1) by reflexivity.
        setoid_replace (inject_Z (2 ^ 52)) with (/ (1 # (2 ^ 52))) by reflexivity. field. discriminate. }
    setoid_replace (inject_Z (b + d) * (inject_Z P * 2 ^ ex)) with ((inject_Z ((b + d) * P * 2 ^ 52) * (1 # (2 ^ 52))) * 2 ^ ex).
    2:{ rewrite !inject_Z_mult. setoid_replace (inject_Z (2 ^ 52)) with (/ (1 # (2 ^ 52))) by reflexivity. field. discriminate. }
    apply Qmult_le_compat_r; [|lra]. apply Qmult_le_compat_r; [|discriminate]. now rewrite <- Zle_Qle.
  - setoid_replace (inject_Z x * 2 ^ ex * (1 + eps)) with ((inject_Z (x * (2 ^ 52 + 1)) * (1 # (2 ^ 52))) * 2 ^ ex).
    2:{ rewrite inject_Z_mult. unfold eps. setoid_replace (inject_Z (2 ^ 52 + 1)) with (inject_Z (2 ^ 52) + 1) by reflexivity.
        setoid_replace (inject_Z (2 ^ 52)) with (/ (1 # (2 ^ 52))) by reflexivity. field. discriminate. }
    setoid_replace (inject_Z (b + d) * (inject_Z P * 2 ^ ex)) with ((inject_Z ((b + d) * P * 2 ^ 52) * (1 # (2 ^ 52))) * 2 ^ ex).
    2:{ rewrite !inject_Z_mult. setoid_replace (inject_Z (2 ^ 52)) with (/ (1 # (2 ^ 52))) by reflexivity. field. discriminate. }
    apply Qmult_le_compat_r; [|lra]. apply Qmult_le_compat_r; [|discriminate]. now rewrite <- Zle_Qle.
Qed.

(** errors add up *)
Lemma close_mul a b x y X Y : 0 <= a -> 0 <= b -> b <= 1 -> a <= 1 -> 0 <= X -> 0 <= Y ->
  close a x X -> close b y Y -> close (a + b + a * b) (x * y) (X * Y).
Proof.
  intros Ha Hb Hb1 Ha1 HX HY [A1 A2] [B1 B2].
  assert (P1 : 0 <= X * (1 - a)) by (apply Qmult_le_0_compat; lra).
  assert (P2 : 0 <= Y * (1 - b)) by (apply Qmult_le_0_compat; lra).
  assert (Px : 0 <= x) by lra. assert (Py : 0 <= y) by lra.
  split.
  - apply Qle_trans with ((X * (1 - a)) * (Y * (1 - b))).
    + setoid_replace (X * (1 - a) * (Y * (1 - b))) with (X * Y * (1 - (a + b + a * b)) + X * Y * (2 * (a * b))) by ring.
      assert (0 <= X * Y * (2 * (a * b))). { apply Qmult_le_0_compat; [now apply Qmult_le_0_compat|]. pose proof (Qmult_le_0_compat _ _ Ha Hb). lra. }
      lra.
    + apply Qle_trans with (x * (Y * (1 - b))); [apply Qmult_le_compat_r; auto|].
      rewrite (Qmult_comm x), (Qmult_comm x). apply Qmult_le_compat_r; auto.
  - apply Qle_trans with ((X * (1 + a)) * (Y * (1 + b))).
    + apply Qle_trans with (x * (Y * (1 + b))).
      * rewrite (Qmult_comm x), (Qmult_comm x). apply Qmult_le_compat_r; auto.
      * apply Qmult_le_compat_r; auto. apply Qmult_le_0_compat; lra.
    + setoid_replace (X * (1 + a) * (Y * (1 + b))) with (X * Y * (1 + (a + b + a * b))) by ring. apply Qle_refl.
Qed.
Lemma close_trans a b x y z : 0 <= a -> 0 <= b -> a <= 1 -> b <= 1 -> 0 <= z ->
  close a x y -> close b y z -> close (a + b + a * b) x z.
Proof.
  intros Ha Hb Ha1 Hb1 Hz [A1 A2] [B1 B2].
  split.
  - apply Qle_trans with (y * (1 - a)); auto. apply Qle_trans with (z * (1 - b) * (1 - a)).
    + setoid_replace (z * (1 - b) * (1 - a)) with (z * (1 - (a + b + a * b)) + z * (2 * (a * b))) by ring.
      assert (0 <= z * (2 * (a * b))). { apply Qmult_le_0_compat; auto. pose proof (Qmult_le_0_compat _ _ Ha Hb). lra. }
      lra.
    + apply Qmult_le_compat_r; auto. lra.
  - apply Qle_trans with (y * (1 + a)); auto. apply Qle_trans with (z * (1 + b) * (1 + a)).
    + apply Qmult_le_compat_r; auto. lra.
    + setoid_replace (z * (1 + b) * (1 + a)) with (z * (1 + (a + b + a * b))) by ring. apply Qle_refl.
Qed.
Lemma close_more a b x y : 0 <= y -> a <= b -> close a x y -> close b x y.
Proof.
  intros Hy H [A B]. split.
  - apply Qle_trans with (y * (1 - a)); auto. rewrite (Qmult_comm y), (Qmult_comm y). apply Qmult_le_compat_r; lra.
  - apply Qle_trans with (y * (1 + a)); auto. rewrite (Qmult_comm y), (Qmult_comm y). apply Qmult_le_compat_r; lra.
Qed.

(** ** conversion and product *)
Lemma f64_of_close p : (dg p <= 64)%Z -> exists m e, f64_of (Npos p) = S754_finite false m e /\
  dg m = 53%Z /\ (dg p - 53 <= e <= dg p - 52)%Z /\ close eps (qv m e) (inject_Z (Zpos p)).
Proof.
  intros H. pose proof (dg_pos p) as H0. unfold f64_of. cbn [Z.of_N binary_normalize]. unfold binary_round. fold (dg p).
  unfold fexp at 1, emin, fprec at 1 2, femax at 1.
  replace (Z.max (dg p + 0 - 53) (3 - 1024 - 53))%Z with (dg p - 53)%Z by lia.
  unfold shl_align. destruct (dg p - 53 - 0)%Z as [|k|k] eqn:E.
  - destruct (round_close p 0 loc_Exact) as (m & e & R & Hm & He & C); try lia. exists m, e.
    repeat split; auto; try lia; destruct C as [C1 C2]; unfold qv in C1 at 1, C2 at 2; change (2 ^ 0) with 1 in *; lra.
  - destruct (round_close p 0 loc_Exact) as (m & e & R & Hm & He & C); try lia. exists m, e.
    repeat split; auto; try lia; destruct C as [C1 C2]; unfold qv in C1 at 1, C2 at 2; change (2 ^ 0) with 1 in *; lra.
  - unfold shift_pos. rewrite Pos2Nat.inj_iter. fold (sh (Pos.to_nat k) p).
    destruct (round_close (sh (Pos.to_nat k) p) (dg p - 53) loc_Exact) as (m & e & R & Hm & He & C).
    { rewrite sh_dg. lia. } { rewrite sh_dg. lia. }
    assert (V : qv (sh (Pos.to_nat k) p) (dg p - 53) == inject_Z (Zpos p)).
    { unfold qv. rewrite sh_val, inject_Z_mult, positive_nat_Z.
      rewrite <- (two_z (Zpos k)) by lia. rewrite <- (Qmult_assoc _ (2 ^ Zpos k)), <- two_add.
      replace (Zpos k + (dg p - 53))%Z with 0%Z by lia. change (2 ^ 0) with 1. rewrite Qmult_1_r. reflexivity. }
    unfold close in C.
    exists m, e. rewrite sh_dg in He. repeat split; auto; try lia.
    + destruct C as [C _]. rewrite V in C. exact C.
    + destruct C as [_ C]. rewrite V in C. exact C.
Qed.
Lemma dg_mul p q : (dg p + dg q - 1 <= dg (p * q) <= dg p + dg q)%Z.
Proof.
  pose proof (dg_bounds p) as [A1 A2]. pose proof (dg_bounds q) as [B1 B2]. pose proof (dg_bounds (p * q)) as [C1 C2].
  pose proof (dg_pos p). pose proof (dg_pos q). pose proof (dg_pos (p * q)). rewrite Pos2Z.inj_mul in *. split.
  - destruct (Z.le_gt_cases (dg p + dg q - 1) (dg (p * q))) as [X|X]; auto. exfalso.
    assert (2 ^ dg (p * q) <= 2 ^ ((dg p - 1) + (dg q - 1)))%Z by (apply Z.pow_le_mono_r; lia).
    rewrite Z.pow_add_r in H2 by lia. nia.
  - destruct (Z.le_gt_cases (dg (p * q)) (dg p + dg q)) as [X|X]; auto. exfalso.
    assert (2 ^ (dg p + dg q) <= 2 ^ (dg (p * q) - 1))%Z by (apply Z.pow_le_mono_r; lia).
    rewrite Z.pow_add_r in H2 by lia. nia.
Qed.
Lemma fmul_close m1 e1 m2 e2 : dg m1 = 53%Z -> dg m2 = 53%Z -> (-1000 <= e1 + e2 <= 800)%Z ->
  exists m e, fmul (S754_finite false m1 e1) (S754_finite false m2 e2) = S754_finite false m e /\
    close eps (qv m e) (qv m1 e1 * qv m2 e2).
Proof.
  intros H1 H2 H. unfold fmul. cbn [SFmul xorb].
  pose proof (dg_mul m1 m2) as D. rewrite H1, H2 in D.
  destruct (round_close (m1 * m2) (e1 + e2) loc_Exact) as (m & e & R & _ & _ & C); try lia.
  exists m, e. split; [exact R|].
  assert (E : qv (m1 * m2) (e1 + e2) == qv m1 e1 * qv m2 e2).
  { unfold qv. rewrite Pos2Z.inj_mul, inject_Z_mult, two_add. ring. }
  unfold close in *. rewrite E in C. exact C.
Qed.

(** uint64(f) is the number rounded down *)
Lemma u64_of_floor m e : qv m e < inject_Z (2 ^ 63) ->
  inject_Z (Z.of_N (u64_of (S754_finite false m e))) <= qv m e /\
  qv m e < inject_Z (Z.of_N (u64_of (S754_finite false m e)) + 1).
Proof.
  intros H. unfold u64_of.
  set (z := match e with Zneg p => (Zpos m / 2 ^ Zpos p)%Z | _ => (Zpos m * 2 ^ e)%Z end).
  assert (Hz : inject_Z z <= qv m e /\ qv m e < inject_Z (z + 1) /\ (0 <= z)%Z).
  { unfold z. destruct e as [|p|p].
    - unfold qv. rewrite Z.pow_0_r, Z.mul_1_r. change (2 ^ 0) with 1. rewrite Qmult_1_r.
      split; [apply Qle_refl|]. split; [rewrite <- Zlt_Qlt; lia|lia].
    - unfold qv. rewrite (two_z (Zpos p)), <- inject_Z_mult by lia. split; [apply Qle_refl|].
      split; [rewrite <- Zlt_Qlt; lia|]. apply Z.mul_nonneg_nonneg; [lia|]. apply Z.pow_nonneg. lia.
    - assert (Pp : (0 < 2 ^ Zpos p)%Z) by (apply Z.pow_pos_nonneg; lia).
      pose proof (Z.div_mod (Zpos m) (2 ^ Zpos p) ltac:(lia)) as DM.
      pose proof (Z.mod_pos_bound (Zpos m) (2 ^ Zpos p) Pp) as MB.
      assert (E : inject_Z (Zpos m) == qv m (Zneg p) * inject_Z (2 ^ Zpos p)).
      { unfold qv. rewrite <- two_z by lia. rewrite <- Qmult_assoc, <- two_add.
        replace (Zneg p + Zpos p)%Z with 0%Z by lia. change (2 ^ 0) with 1. now rewrite Qmult_1_r. }
      assert (P' : 0 < inject_Z (2 ^ Zpos p)) by (change 0 with (inject_Z 0); now rewrite <- Zlt_Qlt).
      split; [|split].
      + apply (Qmult_le_r _ _ _ P'). rewrite <- E, <- inject_Z_mult, <- Zle_Qle. lia.
      + apply (Qmult_lt_r _ _ _ P'). rewrite <- E, <- inject_Z_mult, <- Zlt_Qlt. lia.
      + apply Z.div_pos; lia. }
  destruct Hz as (Z1 & Z2 & Z0).
  assert (B : (z < 2 ^ 63)%Z) by (rewrite Zlt_Qlt; eapply Qle_lt_trans; eauto).
  assert (L : (Z.to_N z <? two64)%N = true).
  { apply N.ltb_lt. apply N2Z.inj_lt. rewrite Z2N.id by assumption. change (Z.of_N two64) with (2 ^ 64)%Z. lia. }
  rewrite L, Z2N.id by assumption. auto.
Qed.

(** ** numbers far below one *)
Lemma shr_le r e n : (0 <= shr_m r)%Z -> (0 <= shr_m (fst (shr r e n)) <= shr_m r)%Z /\ (snd (shr r e n) <= Z.max e (e + n))%Z.
Proof.
  intros H. unfold shr. destruct n as [|p|p]; cbn [fst snd]; try lia.
  rewrite iter_pos_nat, shr_iter_m by assumption. split; [|lia].
  assert (0 < 2 ^ Z.of_nat (Pos.to_nat p))%Z by (apply Z.pow_pos_nonneg; lia).
  split; [now apply Z.div_pos|]. apply Z.div_le_upper_bound; [assumption|]. nia.
Qed.
Lemma round_tiny mx ex lx : (dg mx <= 200)%Z -> (ex + dg mx <= -600)%Z ->
  u64_of (binary_round_aux fprec femax false (Zpos mx) ex lx) = 0%N.
Proof.
  intros H1 H2. pose proof (dg_pos mx) as H0. unfold binary_round_aux.
  unfold shr_fexp at 1. cbn [Zdigits2]. fold (dg mx). unfold fexp at 1, emin, fprec at 1 2, femax at 1.
  set (n := (Z.max (dg mx + ex - 53) (3 - 1024 - 53) - ex)%Z).
  pose proof (shr_le (shr_record_of_loc (Zpos mx) lx) ex n) as S1. rewrite loc_m in S1. specialize (S1 ltac:(lia)).
  destruct (shr (shr_record_of_loc (Zpos mx) lx) ex n) as [r e]. cbn [fst snd] in S1. destruct S1 as [S1 S2].
  assert (He : (e <= -601)%Z) by (unfold n in S2; lia).
  assert (Hm : (Zpos mx < 2 ^ 200)%Z).
  { pose proof (dg_bounds mx) as [_ B]. assert (2 ^ dg mx <= 2 ^ 200)%Z by (apply Z.pow_le_mono_r; lia). lia. }
  pose proof (rne_bounds (shr_m r) (loc_of_shr_record r)) as R.
  set (x := round_nearest_even (shr_m r) (loc_of_shr_record r)) in *.
  assert (Hx : (0 <= x <= 2 ^ 200)%Z) by lia.
  unfold shr_fexp. set (n2 := (fexp fprec femax (Zdigits2 x + e) - e)%Z).
  pose proof (shr_le (shr_record_of_loc x loc_Exact) e n2) as S3. rewrite loc_m in S3. specialize (S3 ltac:(lia)).
  destruct (shr (shr_record_of_loc x loc_Exact) e n2) as [r2 e2]. cbn [fst snd] in S3. destruct S3 as [S3 S4].
  assert (He2 : (e2 <= -400)%Z).
  { assert (Zdigits2 x <= 201)%Z.
    { destruct x as [|p|p]; [cbn; lia| |lia]. cbn [Zdigits2]. fold (dg p).
      destruct (Z.le_gt_cases (dg p) 201) as [X|X]; auto. exfalso. pose proof (proj1 (dg_bounds p)) as B.
      assert (2 ^ 201 <= 2 ^ (dg p - 1))%Z by (apply Z.pow_le_mono_r; lia).
      change (2 ^ 201)%Z with (2 * 2 ^ 200)%Z in *. lia. }
    unfold n2, fexp, emin, fprec, femax in S4. lia. }
  destruct (shr_m r2) as [|p|p] eqn:Ep; try reflexivity.
  destruct (e2 <=? femax - fprec)%Z; [|reflexivity]. unfold u64_of. destruct e2 as [|q|q]; try lia.
  assert (E : (Zpos p / 2 ^ Zpos q = 0)%Z).
  { apply Z.div_small. split; [lia|]. assert (2 ^ 400 <= 2 ^ Zpos q)%Z by (apply Z.pow_le_mono_r; lia).
    assert (2 ^ 200 < 2 ^ 400)%Z by (vm_compute; reflexivity). lia. }
  rewrite E. reflexivity.
Qed.
