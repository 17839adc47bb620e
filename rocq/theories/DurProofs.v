(** Durations: proofs about internal/times/dur.go. *)
From Coq Require Import String.
From Coq Require Import List NArith ZArith Bool Arith Lia.
From Verif Require Import GoStr Dur DurFloat DurSpec.
Import ListNotations.
Open Scope N_scope.
Open Scope list_scope.

Lemma two63_v : two63 = 9223372036854775808. Proof. reflexivity. Qed.
Lemma two64_v : two64 = 18446744073709551616. Proof. reflexivity. Qed.
Lemma u64_id x : x < two64 -> u64 x = x.
Proof. intros H. apply N.mod_small. exact H. Qed.
Local Opaque N.mul N.div N.modulo N.add N.sub.
Local Opaque two63 two64.

(** ** numbers *)
Definition vstep (x c : N) : N := 10 * x + (c - 48).
Lemma val_fold ds : val ds = fold_left vstep ds 0.
Proof. reflexivity. Qed.
Lemma vfold_ge ds : forall x, x <= fold_left vstep ds x.
Proof.
  induction ds as [|c ds IH]; intros x; cbn; [lia|]. etransitivity; [|apply IH]. unfold vstep. lia.
Qed.
Lemma vfold_app a b x : fold_left vstep (a ++ b) x = fold_left vstep b (fold_left vstep a x).
Proof. apply fold_left_app. Qed.
Lemma vfold_lin ds : forall x, fold_left vstep ds x = x * 10 ^ N.of_nat (length ds) + fold_left vstep ds 0.
Proof.
  induction ds as [|c ds IH]; intros x; cbn [fold_left length]; [cbn; lia|].
  rewrite IH, (IH (vstep 0 c)). rewrite Nat2N.inj_succ, N.pow_succ_r'. unfold vstep. ring.
Qed.
Lemma vfold_lt ds : Forall digit ds -> fold_left vstep ds 0 < 10 ^ N.of_nat (length ds).
Proof.
  induction ds as [|c ds IH] using rev_ind; intros H; [cbn; lia|].
  apply Forall_app in H. destruct H as [H1 H2]. inversion H2 as [|? ? Hc _]; subst. specialize (IH H1).
  rewrite vfold_app, app_length. cbn [fold_left length]. rewrite Nat.add_1_r, Nat2N.inj_succ, N.pow_succ_r'.
  unfold digit in Hc. unfold vstep at 1. lia.
Qed.
Lemma digit_is c : is_digit c = true <-> digit c.
Proof. unfold is_digit, digit. rewrite andb_true_iff, !N.leb_le. tauto. Qed.
Lemma digit_not c : is_digit c = false -> ~ digit c.
Proof. intros H D. apply digit_is in D. congruence. Qed.

Definition no_digit_head (r : gostring) : Prop := match r with c :: _ => is_digit c = false | [] => True end.

Lemma leadingInt_spec ds : forall r x, Forall digit ds -> no_digit_head r -> x <= two63 ->
  leadingInt (ds ++ r) x =
    if two63 <? fold_left vstep ds x then None else Some (fold_left vstep ds x, r).
Proof.
  induction ds as [|c ds IH]; intros r x H Hr Hx; cbn [app fold_left].
  - destruct (N.ltb_spec two63 x); [lia|]. destruct r as [|c r]; cbn [leadingInt]; auto. cbn in Hr. now rewrite Hr.
  - inversion H as [|? ? Hc Hds]; subst. cbn [leadingInt]. rewrite (proj2 (digit_is c) Hc).
    pose proof (vfold_ge ds (vstep x c)) as G. unfold digit in Hc.
    assert (E : x * 10 + c - 48 = vstep x c) by (unfold vstep; lia). rewrite E.
    destruct (N.ltb_spec (two63 / 10) x) as [L|L].
    + destruct (N.ltb_spec two63 (fold_left vstep ds (vstep x c))) as [|X]; auto. exfalso.
      assert (vstep x c <= two63) by lia. unfold vstep in *.
      pose proof (N.mul_succ_div_gt two63 10 ltac:(lia)). lia.
    + assert (vstep x c < two64).
      { unfold vstep. pose proof (N.mul_div_le two63 10 ltac:(lia)). rewrite two63_v, two64_v in *. lia. }
      rewrite u64_id by assumption. destruct (N.ltb_spec two63 (vstep x c)) as [L2|L2].
      * destruct (N.ltb_spec two63 (fold_left vstep ds (vstep x c))); auto. lia.
      * apply IH; auto.
Qed.

Lemma span_unit_spec u r :
  Forall (fun c => (c =? 46) || is_digit c = false) u ->
  match r with c :: _ => (c =? 46) || is_digit c = true | [] => True end ->
  span_unit (u ++ r) = (u, r).
Proof.
  induction u as [|c u IH]; intros Hu Hr; cbn [app].
  - destruct r as [|c r]; cbn; auto. now rewrite Hr.
  - inversion Hu as [|? ? Hc Hu']; subst. cbn. rewrite Hc, IH; auto.
Qed.
Lemma str_eqb_eq a b : str_eqb a b = true <-> a = b.
Proof. unfold str_eqb. destruct (list_eq_dec N.eq_dec a b); split; congruence. Qed.
Lemma unitMap_in u n : In (u, n) units <-> unitMap u = Some n.
Proof.
  split.
  - intros H. repeat (destruct H as [H|H]; [injection H as <- <-; vm_compute; reflexivity|]). destruct H.
  - unfold unitMap.
    repeat match goal with |- context[str_eqb u ?s] =>
      let E := fresh in destruct (str_eqb u s) eqn:E;
      [apply str_eqb_eq in E; subst u; intros X; injection X as <-; vm_compute; tauto|clear E] end.
    discriminate.
Qed.
Lemma units_chars u n : In (u, n) units ->
  u <> [] /\ Forall (fun c => (c =? 46) || is_digit c = false) u.
Proof.
  intros H. repeat (destruct H as [H|H]; [injection H as <- <-; split; [discriminate|repeat constructor]|]). destruct H.
Qed.
Lemma units_pos u n : In (u, n) units -> 0 < n /\ n <= 86400000000000.
Proof.
  intros H. repeat (destruct H as [H|H]; [injection H as <- <-; vm_compute; split; [reflexivity|discriminate]|]). destruct H.
Qed.

(** ** fractions *)
Definition scaled (k : nat) (sc : f64) : f64 := Nat.iter k (fun s => fmul s (f64_of 10)) sc.
Lemma scaled_S k sc : scaled k (fmul sc (f64_of 10)) = scaled (S k) sc.
Proof.
  unfold scaled. induction k as [|k IH]; [reflexivity|].
  change (fmul (Nat.iter k (fun s => fmul s (f64_of 10)) (fmul sc (f64_of 10))) (f64_of 10) =
          fmul (Nat.iter (S k) (fun s => fmul s (f64_of 10)) sc) (f64_of 10)). now rewrite IH.
Qed.
Lemma leadingFraction_spec fs : forall r x sc, Forall digit fs -> no_digit_head r ->
  fold_left vstep fs x < 100000000000000 ->
  leadingFraction (fs ++ r) x sc false = (fold_left vstep fs x, scaled (length fs) sc, r).
Proof.
  induction fs as [|c fs IH]; intros r x sc H Hr Hx; cbn [app fold_left].
  - destruct r as [|c r]; cbn [leadingFraction]; auto. cbn in Hr. now rewrite Hr.
  - inversion H as [|? ? Hc Hfs]; subst. cbn [leadingFraction fold_left] in *. rewrite (proj2 (digit_is c) Hc).
    pose proof (vfold_ge fs (vstep x c)) as G.
    assert (E : x * 10 + c - 48 = vstep x c) by (unfold vstep, digit in *; lia). rewrite E.
    assert (B : vstep x c < 100000000000000) by lia.
    assert (x <= vstep x c) by (unfold vstep; lia).
    change ((two63 - 1) / 10) with 922337203685477580.
    destruct (N.ltb_spec 922337203685477580 x); [lia|].
    rewrite u64_id by (rewrite two64_v; lia). destruct (N.ltb_spec two63 (vstep x c)); [rewrite two63_v in *; lia|].
    rewrite IH by auto. cbn [length]. now rewrite scaled_S.
Qed.
Definition kbound : nat := 13.
Lemma scaled_pow k : (k <= kbound)%nat -> scaled k (f64_of 1) = f64_of (10 ^ N.of_nat k).
Proof.
  intros H. unfold kbound in H.
  do 14 (destruct k as [|k]; [vm_compute; reflexivity|]). lia.
Qed.
Lemma div_table : forallb (fun n => forallb (fun k =>
   negb (n mod 10 ^ N.of_nat k =? 0) ||
   match fdiv (f64_of n) (f64_of (10 ^ N.of_nat k)), f64_of (n / 10 ^ N.of_nat k) with
   | SpecFloat.S754_finite a m e, SpecFloat.S754_finite a' m' e' =>
       Bool.eqb a a' && (m =? m')%positive && (e =? e')%Z
   | _, _ => false end) (seq 0 14)) (map snd units) = true.
Proof. vm_compute. reflexivity. Qed.
Lemma div_exact u n k q : In (u, n) units -> n = q * 10 ^ N.of_nat k ->
  (k <= kbound)%nat /\ fdiv (f64_of n) (f64_of (10 ^ N.of_nat k)) = f64_of q.
Proof.
  intros Hu En. destruct (units_pos _ _ Hu) as [Hp Hb].
  assert (Hk : (k <= kbound)%nat).
  { destruct (le_lt_dec k kbound); auto. exfalso.
    assert (10 ^ 14 <= 10 ^ N.of_nat k) by (apply N.pow_le_mono_r; unfold kbound in *; lia).
    assert (q <> 0) by (intros ->; lia). change (10 ^ 14) with 100000000000000 in *. nia. }
  split; auto.
  assert (P : 10 ^ N.of_nat k <> 0) by (apply N.pow_nonzero; lia).
  pose proof div_table as T. rewrite forallb_forall in T. specialize (T n). rewrite forallb_forall in T.
  specialize (T (in_map snd _ _ Hu) k). 
  assert (Ik : In k (seq 0 14)) by (apply in_seq; unfold kbound in *; lia).
  specialize (T Ik). rewrite En in T at 1. rewrite N.mod_mul in T by assumption.
  cbn [negb orb N.eqb] in T.
  assert (Eq : n / 10 ^ N.of_nat k = q) by (rewrite En; now apply N.div_mul). rewrite Eq in T.
  destruct (fdiv _ _) as [| | |a m e], (f64_of q) as [| | |a' m' e']; try discriminate.
  apply andb_true_iff in T. destruct T as [T T3]. apply andb_true_iff in T. destruct T as [T1 T2].
  apply Bool.eqb_prop in T1. apply Pos.eqb_eq in T2. apply Z.eqb_eq in T3. now subst.
Qed.

(** ** one term *)
Lemma tval_exact t q : t_ns t = q * 10 ^ N.of_nat (length (frac_digits t)) ->
  tval t = val (t_int t) * t_ns t + val (frac_digits t) * q.
Proof.
  intros E. unfold tval. f_equal. rewrite E, N.mul_assoc. apply N.div_mul. apply N.pow_nonzero. lia.
Qed.
Definition term_head (r : gostring) : Prop :=
  match r with c :: _ => (c =? 46) || is_digit c = true | [] => True end.

Lemma parse_term t r fuel d : good_term t -> exact_term t -> term_head r -> d <= two63 ->
  parseLoop (S fuel) (tstr t ++ r) d =
    if two63 <? tval t then Ok None
    else let d1 := u64 (d + tval t) in if two63 <? d1 then Ok None else parseLoop fuel r d1.
Proof.
  intros (Hi & Hf & Hne & Hu) [q Eq] Hr Hd. rewrite (tval_exact t q Eq).
  destruct (units_chars _ _ Hu) as [Hu1 Hu2]. destruct (units_pos _ _ Hu) as [Hn1 Hn2].
  destruct (div_exact _ _ _ _ Hu Eq) as [Hk Hdiv].
  destruct t as [ds fr u n]. unfold tstr, frac_digits in *. cbn [t_int t_frac t_unit t_ns] in *.
  set (fs := match fr with Some f => f | None => [] end) in *.
  assert (Hq : q <> 0) by (intros ->; lia).
  pose proof (vfold_lt fs Hf) as Vf. rewrite <- val_fold in Vf.
  assert (Bn : val fs * q < n) by (rewrite Eq; rewrite (N.mul_comm q); apply N.mul_lt_mono_pos_r; lia).
  assert (Bf : val fs < 100000000000000).
  { eapply N.lt_le_trans; [exact Vf|]. assert (10 ^ N.of_nat (length fs) <= n) by (rewrite Eq; nia). lia. }
  set (s := (ds ++ (match fr with Some f => 46 :: f | None => [] end) ++ u) ++ r).
  assert (Es : s = ds ++ ((match fr with Some f => 46 :: f | None => [] end) ++ u ++ r))
    by (unfold s; rewrite <- !app_assoc; reflexivity).
  assert (Un : exists u0 u', u = u0 :: u' /\ (u0 =? 46) || is_digit u0 = false).
  { destruct u as [|u0 u']; [congruence|]. inversion Hu2; subst. eauto. }
  destruct Un as (u0 & u' & Eu & Hu0). pose proof Hu0 as Hu0'. apply orb_false_iff in Hu0'. destruct Hu0' as [U1 U2].
  assert (Hd1 : no_digit_head ((match fr with Some f => 46 :: f | None => [] end) ++ u ++ r)).
  { destruct fr; cbn; auto. rewrite Eu. cbn. exact U2. }
  assert (Hhead : exists c0 t0, s = c0 :: t0 /\ (c0 =? 46) || is_digit c0 = true).
  { rewrite Es. destruct ds as [|c ds].
    - destruct fr as [f|]; [|cbn in Hne; destruct Hne as [X|X]; exfalso; now apply X].
      cbn. do 2 eexists. split; reflexivity.
    - cbn. do 2 eexists. split; [reflexivity|]. inversion Hi; subst. rewrite (proj2 (digit_is c)); auto. apply orb_true_r. }
  destruct Hhead as (c0 & t0 & Ec & Hc0). rewrite Ec. cbn [parseLoop]. rewrite Hc0. cbn [negb]. rewrite <- Ec, Es.
  rewrite leadingInt_spec by (auto; lia). rewrite <- val_fold.
  destruct (N.ltb_spec two63 (val ds)) as [L|L].
  { destruct (N.ltb_spec two63 (val ds * n + val fs * q)); auto. nia. }
  set (rest := ((match fr with Some f => 46 :: f | None => [] end) ++ u ++ r) : gostring).
  assert (E2 : exists post, (match rest return (N * f64 * gostring * bool) with
     | [] => (0, f64_of 1, rest, false)
     | c1 :: t1 => if c1 =? 46 then
         let '(f, scale, s2) := leadingFraction t1 0 (f64_of 1) false in
         (f, scale, s2, negb (length t1 =? length s2)%nat)
       else (0, f64_of 1, rest, false) end) = (val fs, f64_of (10 ^ N.of_nat (length fs)), u ++ r, post) /\
     post = negb (is_nil fs)).
  { unfold rest. subst fs. destruct fr as [f|].
    - cbn [app]. rewrite N.eqb_refl. rewrite leadingFraction_spec; auto.
      + rewrite scaled_pow by exact Hk. eexists. split; [reflexivity|]. rewrite app_length.
        destruct f; cbn [is_nil negb length]; [now rewrite Nat.eqb_refl|].
        destruct (Nat.eqb_spec (S (length f) + length (u ++ r)) (length (u ++ r))); [lia|reflexivity].
      + rewrite Eu. cbn. exact U2.
    - cbn [app]. rewrite Eu. cbn [app]. rewrite U1. eexists. split; reflexivity. }
  destruct E2 as (post & E2 & Epost). rewrite E2. clear E2.
  assert (Epre : negb (length (ds ++ rest) =? length rest)%nat = negb (is_nil ds)).
  { rewrite app_length. destruct ds; cbn [is_nil negb length]; [now rewrite Nat.eqb_refl|].
    destruct (Nat.eqb_spec (S (length ds) + length rest) (length rest)); [lia|reflexivity]. }
  rewrite Epre, Epost, !negb_involutive.
  replace (is_nil ds && is_nil fs) with false.
  2:{ destruct ds; auto. destruct fs; auto. cbn in Hne. destruct Hne as [X|X]; exfalso; now apply X. }
  rewrite span_unit_spec by assumption.
  replace (is_nil u) with false by (rewrite Eu; reflexivity).
  rewrite (proj1 (unitMap_in u n) Hu).
  destruct (N.ltb_spec (two63 / n) (val ds)) as [L2|L2].
  { destruct (N.ltb_spec two63 (val ds * n + val fs * q)) as [|X]; auto. exfalso.
    pose proof (N.mul_succ_div_gt two63 n ltac:(lia)). nia. }
  assert (B1 : val ds * n <= two63).
  { pose proof (N.mul_div_le two63 n ltac:(lia)). nia. }
  rewrite (u64_id (val ds * n)) by (rewrite two63_v, two64_v in *; lia).
  assert (E3 : (if 0 <? val fs
     then u64 (val ds * n + u64_of (fmul (f64_of (val fs)) (fdiv (f64_of n) (f64_of (10 ^ N.of_nat (length fs))))))
     else val ds * n) = val ds * n + val fs * q).
  { destruct (N.ltb_spec 0 (val fs)) as [P|P].
    - rewrite Hdiv, mul_exact; [|lia|lia|lia]. apply u64_id. rewrite two63_v, two64_v in *. lia.
    - replace (val fs) with 0 by lia. rewrite N.mul_0_l. now rewrite N.add_0_r. }
  rewrite E3.
  destruct (N.ltb_spec two63 (val ds * n + val fs * q)) as [L3|L3].
  - destruct (N.ltb_spec 0 (val fs)) as [P|P]; cbn [andb]; auto. exfalso.
    replace (val fs) with 0 in L3 by lia. rewrite N.mul_0_l in L3. lia.
  - rewrite andb_false_r. reflexivity.
Qed.

(** ** a whole text *)
Definition nowrap (ts : list term) : Prop := dsum ts < two64 \/ Forall (fun t => tval t <> two63) ts.

Lemma tstr_head t : good_term t -> tstr t <> [] /\ forall r, term_head (tstr t ++ r).
Proof.
  intros (Hi & Hf & Hne & Hu). unfold tstr. destruct t as [ds fr u n]. unfold frac_digits in *. cbn [t_int t_frac t_unit] in *.
  destruct ds as [|c ds].
  - destruct fr as [f|]; [|destruct Hne as [X|X]; exfalso; now apply X]. split; [discriminate|]. intros r. reflexivity.
  - split; [discriminate|]. intros r. inversion Hi; subst. cbn. rewrite (proj2 (digit_is c)); auto. apply orb_true_r.
Qed.
Lemma dstr_head ts : Forall good_term ts -> term_head (dstr ts).
Proof. intros H. destruct H as [|t ts Ht _]; [exact I|]. unfold dstr. cbn. now apply tstr_head. Qed.

Lemma parse_loop_terms ts : forall fuel d,
  Forall good_term ts -> Forall exact_term ts -> d <= two63 ->
  (d + dsum ts < two64 \/ Forall (fun t => tval t <> two63) ts) -> (length ts <= fuel)%nat ->
  parseLoop fuel (dstr ts) d = Ok (if two63 <? d + dsum ts then None else Some (d + dsum ts)).
Proof.
  induction ts as [|t ts IH]; intros fuel d G E Hd Hw Hf.
  - cbn [dsum fold_right]. rewrite N.add_0_r. destruct (N.ltb_spec two63 d); [lia|]. destruct fuel; reflexivity.
  - destruct fuel as [|fuel]; [cbn in Hf; lia|]. inversion G; inversion E; subst.
    change (dstr (t :: ts)) with (tstr t ++ dstr ts).
    rewrite parse_term; auto using dstr_head. cbn [dsum fold_right] in *. fold (dsum ts) in *.
    destruct (N.ltb_spec two63 (tval t)) as [L|L].
    { destruct (N.ltb_spec two63 (d + (tval t + dsum ts))); auto. lia. }
    assert (Nw : d + tval t < two64).
    { destruct Hw as [Hw|Hw]; [lia|]. inversion Hw as [|? ? X _]; subst. rewrite two63_v, two64_v in *. lia. }
    cbv zeta. rewrite u64_id by assumption.
    destruct (N.ltb_spec two63 (d + tval t)) as [L2|L2].
    { destruct (N.ltb_spec two63 (d + (tval t + dsum ts))); auto. lia. }
    rewrite IH; auto.
    + now rewrite N.add_assoc.
    + destruct Hw as [Hw|Hw]; [left; lia|right; now inversion Hw].
    + cbn in Hf. lia.
Qed.

Definition sign_of (sg : gostring) (neg : bool) : Prop :=
  (sg = [] /\ neg = false) \/ (sg = [43] /\ neg = false) \/ (sg = [45] /\ neg = true).

Lemma dstr_len ts : Forall good_term ts -> (length ts <= length (dstr ts))%nat.
Proof.
  induction 1 as [|t ts Ht _ IH]; [cbn; lia|]. unfold dstr in *. cbn. rewrite app_length.
  destruct (tstr_head t Ht) as [X _]. destruct (tstr t); [congruence|]. cbn. lia.
Qed.
Lemma good_last t : good_term t -> exists a c, tstr t = a ++ [c] /\ is_digit c = false.
Proof.
  intros (_ & _ & _ & Hu). destruct (units_chars _ _ Hu) as [H1 H2].
  destruct (t_unit t) as [|c u] eqn:E using rev_ind; [congruence|].
  exists (t_int t ++ (match t_frac t with Some f => 46 :: f | None => [] end) ++ u), c. unfold tstr.
  rewrite E, <- !app_assoc. split; auto. apply Forall_app in H2. destruct H2 as [_ H2]. inversion H2; subst.
  match goal with H : _ || _ = false |- _ => apply orb_false_iff in H; tauto end.
Qed.
Lemma dstr_not_zero ts : Forall good_term ts -> ts <> [] -> dstr ts <> [] /\ dstr ts <> [48].
Proof.
  intros G Hne. destruct ts as [|t ts] using rev_ind; [congruence|]. clear IHts.
  apply Forall_app in G. destruct G as [_ G]. inversion G as [|? ? Ht _]; subst.
  destruct (good_last t Ht) as (a & c & E & Hc). unfold dstr. rewrite map_app, concat_app. cbn. rewrite E, app_nil_r.
  split.
  - rewrite app_assoc. intros X. destruct (app_cons_not_nil _ _ _ (eq_sym X)).
  - rewrite app_assoc. intros X. change [48] with ([] ++ [48]) in X. apply app_inj_tail in X. destruct X as [_ ->]. discriminate.
Qed.

(** C36: every sequence of terms that are whole nanoseconds *)
Theorem parse_terms sg neg ts :
  sign_of sg neg -> ts <> [] -> Forall good_term ts -> Forall exact_term ts -> nowrap ts ->
  ParseDuration (sg ++ dstr ts) =
    Ok (if neg then if dsum ts <=? two63 then Some (- Z.of_N (dsum ts))%Z else None
        else if dsum ts <? two63 then Some (Z.of_N (dsum ts)) else None).
Proof.
  intros Hs Hne G E Hw. destruct (dstr_not_zero ts G Hne) as [D1 D2].
  assert (Es : strip_sign (sg ++ dstr ts) = (neg, dstr ts)).
  { destruct Hs as [[-> ->]|[[-> ->]|[-> ->]]]; cbn [app]; auto.
    pose proof (dstr_head ts G) as H. destruct (dstr ts) as [|c t] eqn:Ed; auto. cbn in H. unfold strip_sign.
    destruct (N.eqb_spec c 45); [subst; discriminate|]. destruct (N.eqb_spec c 43); [subst; discriminate|]. reflexivity. }
  unfold ParseDuration. rewrite Es.
  replace (str_eqb (dstr ts) (s2b "0")) with false.
  2:{ symmetry. destruct (str_eqb (dstr ts) (s2b "0")) eqn:X; auto. apply str_eqb_eq in X. exfalso. apply D2. exact X. }
  replace (is_nil (dstr ts)) with false by (destruct (dstr ts); [congruence|reflexivity]).
  rewrite parse_loop_terms; auto using dstr_len; try lia.
  rewrite N.add_0_l. cbn [bind]. f_equal.
  destruct (N.ltb_spec two63 (dsum ts)) as [L|L].
  - destruct neg; [destruct (N.leb_spec (dsum ts) two63); [lia|reflexivity]|
                   destruct (N.ltb_spec (dsum ts) two63); [lia|reflexivity]].
  - destruct neg.
    + destruct (N.leb_spec (dsum ts) two63); [|lia]. f_equal. unfold dur_of, neg64.
      destruct (N.leb_spec two63 (dsum ts)).
      * replace (dsum ts) with two63 by lia. reflexivity.
      * destruct (Z.eqb_spec (Z.of_N (dsum ts)) (- Z.of_N two63)); [|reflexivity].
        rewrite two63_v in *. lia.
    + destruct (N.ltb_spec (dsum ts) two63).
      * destruct (N.ltb_spec (two63 - 1) (dsum ts)); [rewrite two63_v in *; lia|]. f_equal. unfold dur_of.
        destruct (N.leb_spec two63 (dsum ts)); [lia|reflexivity].
      * destruct (N.ltb_spec (two63 - 1) (dsum ts)); [reflexivity|rewrite two63_v in *; lia].
Qed.
