(** Proofs about the integer helpers. *)
From Coq Require Import String.
From Coq Require Import List NArith ZArith Bool Arith Lia.
From Verif Require Import GoStr Utf8 Node Trie Dur Cvter SizeProofs SizeLit Ints.
Import ListNotations.
Open Scope Z_scope.
Open Scope list_scope.

(** a literal of the Go specification with or without a sign, and the number it stands for *)
Inductive int_text : list N -> Z -> Prop :=
| it_plain s b t : literal s b t -> int_text s (Z.of_N (reading b t))
| it_plus s b t : literal s b t -> int_text (43%N :: s) (Z.of_N (reading b t))
| it_minus s b t : literal s b t -> int_text (45%N :: s) (- Z.of_N (reading b t)).
Definition in64 (z : Z) : Prop := - 2 ^ 63 <= z < 2 ^ 63.

Lemma digits_hd b t : digits b t -> exists c u, t = c :: u /\ digit_in b c = true.
Proof. destruct 1; eauto. Qed.
Lemma literal_hd s b t : literal s b t -> exists c u, s = c :: u /\ c <> 43%N /\ c <> 45%N.
Proof.
  destruct 1 as [t D _| | | | | ]; try (eexists; eexists; split; [reflexivity|split; discriminate]).
  destruct (digits_hd _ _ D) as (c & u & -> & Hc). exists c, u. split; [reflexivity|]. split; intros ->; discriminate.
Qed.
Lemma maxu_63 : (2 ^ 63 < maxu64)%N. Proof. reflexivity. Qed.
Lemma uint_lit s b t : literal s b t ->
  exists un ok, ParseUint s = (un, ok) /\ (ok = true \/ un = maxu64) /\
    (un = reading b t \/ (maxu64 < reading b t /\ un = maxu64))%N.
Proof.
  intros H. rewrite (parse_literal _ _ _ H). destruct (N.leb_spec (reading b t) maxu64); eexists; eexists; (split; [reflexivity|]).
  - auto.
  - auto.
Qed.
Definition parsed (neg : bool) (un : N) (ok : bool) : Z * bool :=
  if negb ok && (un =? 0)%N then (0, false)
  else if negb neg && (2 ^ 63 <=? un)%N then (2 ^ 63 - 1, false)
  else if neg && (2 ^ 63 <? un)%N then (- 2 ^ 63, false)
  else (if neg then - Z.of_N un else Z.of_N un, true).
Lemma parse_plain s c t : s = c :: t -> c <> 43%N -> c <> 45%N -> ParseInt s = parsed false (fst (ParseUint s)) (snd (ParseUint s)).
Proof.
  intros -> A B. unfold ParseInt. destruct (N.eqb_spec c 43); [contradiction|]. destruct (N.eqb_spec c 45); [contradiction|].
  destruct (ParseUint (c :: t)). reflexivity.
Qed.
Lemma parse_plus t : ParseInt (43%N :: t) = parsed false (fst (ParseUint t)) (snd (ParseUint t)).
Proof. unfold ParseInt. cbn [N.eqb Pos.eqb]. destruct (ParseUint t). reflexivity. Qed.
Lemma parse_minus t : ParseInt (45%N :: t) = parsed true (fst (ParseUint t)) (snd (ParseUint t)).
Proof. unfold ParseInt. cbn [N.eqb Pos.eqb]. destruct (ParseUint t). reflexivity. Qed.

Definition clamp (z : Z) : Z := if z <? - 2 ^ 63 then - 2 ^ 63 else if 2 ^ 63 <=? z then 2 ^ 63 - 1 else z.
Lemma parsed_lit (neg : bool) s b t : literal s b t ->
  let z := if neg then - Z.of_N (reading b t) else Z.of_N (reading b t) in
  parsed neg (fst (ParseUint s)) (snd (ParseUint s)) = (clamp z, (- 2 ^ 63 <=? z) && (z <? 2 ^ 63)).
Proof.
  intros H z. destruct (uint_lit _ _ _ H) as (un & ok & -> & HO & HU). cbn [fst snd].
  pose proof maxu_63 as M. unfold parsed, clamp.
  change (2 ^ 63) with (Z.of_N (2 ^ 63)). assert (B0 : (0 < 2 ^ 63)%N) by reflexivity. set (B := (2 ^ 63)%N) in *. clearbody B.
  assert (E0 : negb ok && (un =? 0)%N = false).
  { destruct HO as [->|E]; [reflexivity|]. destruct (N.eqb_spec un 0) as [X|X]; [|apply andb_false_r]. rewrite X in E. discriminate E. }
  rewrite E0. clear E0 HO.
  destruct neg; cbn [negb andb]; unfold z.
  - destruct (N.ltb_spec B un) as [L|L].
    + destruct (Z.ltb_spec (- Z.of_N (reading b t)) (- Z.of_N B)); [|lia].
      destruct (Z.leb_spec (- Z.of_N B) (- Z.of_N (reading b t))); [lia|reflexivity].
    + destruct HU as [->|[X Y]]; [|lia].
      destruct (Z.ltb_spec (- Z.of_N (reading b t)) (- Z.of_N B)); [lia|].
      destruct (Z.leb_spec (Z.of_N B) (- Z.of_N (reading b t))); [lia|].
      destruct (Z.leb_spec (- Z.of_N B) (- Z.of_N (reading b t))); [|lia].
      destruct (Z.ltb_spec (- Z.of_N (reading b t)) (Z.of_N B)); [reflexivity|lia].
  - destruct (N.leb_spec B un) as [L|L].
    + destruct (Z.ltb_spec (Z.of_N (reading b t)) (- Z.of_N B)); [lia|].
      destruct (Z.leb_spec (Z.of_N B) (Z.of_N (reading b t))); [|lia].
      destruct (Z.ltb_spec (Z.of_N (reading b t)) (Z.of_N B)); [lia|]. now rewrite andb_false_r.
    + destruct HU as [->|[X Y]]; [|lia].
      destruct (Z.ltb_spec (Z.of_N (reading b t)) (- Z.of_N B)); [lia|].
      destruct (Z.leb_spec (Z.of_N B) (Z.of_N (reading b t))); [lia|].
      destruct (Z.leb_spec (- Z.of_N B) (Z.of_N (reading b t))); [|lia].
      destruct (Z.ltb_spec (Z.of_N (reading b t)) (Z.of_N B)); [reflexivity|lia].
Qed.

(** every literal gives its number, or the nearest one with an error *)
Theorem int_reads s z : int_text s z -> SmartParseInt s = (clamp z, (- 2 ^ 63 <=? z) && (z <? 2 ^ 63)).
Proof.
  unfold SmartParseInt. destruct 1 as [s b t H|s b t H|s b t H].
  - destruct (literal_hd _ _ _ H) as (c & u & E & A & B). rewrite (parse_plain s c u E A B). exact (parsed_lit false s b t H).
  - rewrite parse_plus. exact (parsed_lit false s b t H).
  - rewrite parse_minus. exact (parsed_lit true s b t H).
Qed.
Lemma parsed_true (neg : bool) u z : parsed neg (fst (ParseUint u)) (snd (ParseUint u)) = (z, true) ->
  exists b t, literal u b t /\ z = (if neg then - Z.of_N (reading b t) else Z.of_N (reading b t)).
Proof.
  destruct (ParseUint u) as [un ok] eqn:E. cbn [fst snd]. unfold parsed. intros H.
  destruct ok.
  - destruct (parse_only u un E) as (b & t & L & ->). exists b, t. split; [exact L|]. cbn [negb andb] in H.
    destruct (negb neg && _)%bool; [discriminate|]. destruct (neg && _)%bool; [discriminate|]. now inversion H.
  - exfalso. cbn [negb andb] in H. destruct (N.eqb_spec un 0) as [X|X]; [discriminate|].
    assert (EM : un = maxu64).
    { unfold ParseUint in E. destruct (is_nil u); [congruence|]. destruct (base_of u) as [b d]. destruct (pu_go b d 0); try congruence.
      destruct (mem 95 d && negb (underscoreOK u)); congruence. }
    rewrite EM in H. destruct neg; vm_compute in H; discriminate.
Qed.
Theorem int_only s z : SmartParseInt s = (z, true) <-> int_text s z /\ in64 z.
Proof.
  unfold in64. split.
  - intros H. assert (T : int_text s z).
    { unfold SmartParseInt in H. destruct s as [|c t]; [discriminate|].
      destruct (N.eq_dec c 43) as [->|N1].
      { rewrite parse_plus in H. destruct (parsed_true _ _ _ H) as (b & d & L & ->). now apply it_plus. }
      destruct (N.eq_dec c 45) as [->|N2].
      { rewrite parse_minus in H. destruct (parsed_true _ _ _ H) as (b & d & L & ->). now apply it_minus. }
      rewrite (parse_plain _ c t eq_refl N1 N2) in H. destruct (parsed_true _ _ _ H) as (b & d & L & ->). now apply it_plain. }
    split; [exact T|]. rewrite (int_reads s z T) in H.
    assert (B : (- 2 ^ 63 <=? z) && (z <? 2 ^ 63) = true) by congruence. apply andb_true_iff in B. rewrite Z.leb_le, Z.ltb_lt in B. exact B.
  - intros [T (A & B)]. rewrite (int_reads s z T). apply Z.leb_le in A as A'. apply Z.ltb_lt in B as B'. rewrite A', B'.
    unfold clamp. destruct (Z.ltb_spec z (- 2 ^ 63)); [lia|]. destruct (Z.leb_spec (2 ^ 63) z); [lia|]. reflexivity.
Qed.
(** an error leaves 0 or one of the bounds *)
Theorem int_error s z : SmartParseInt s = (z, false) -> z = 0 \/ z = 2 ^ 63 - 1 \/ z = - 2 ^ 63.
Proof.
  unfold SmartParseInt. assert (P : forall neg un ok, parsed neg un ok = (z, false) -> z = 0 \/ z = 2 ^ 63 - 1 \/ z = - 2 ^ 63).
  { intros neg un ok. unfold parsed. destruct (negb ok && _)%bool; [intros H; inversion H; auto|].
    destruct (negb neg && _)%bool; [intros H; inversion H; auto|]. destruct (neg && _)%bool; [intros H; inversion H; auto|]. discriminate. }
  destruct s as [|c t]; [intros H; inversion H; auto|].
  destruct (N.eq_dec c 43) as [->|N1]; [rewrite parse_plus; apply P|].
  destruct (N.eq_dec c 45) as [->|N2]; [rewrite parse_minus; apply P|].
  rewrite (parse_plain _ c t eq_refl N1 N2). apply P.
Qed.
(** unsigned *)
Theorem uint_only s n : SmartParseUint s = (n, true) <-> exists b t, literal s b t /\ n = reading b t /\ (n < 2 ^ 64)%N.
Proof.
  unfold SmartParseUint. split.
  - intros H. destruct (parse_only s n H) as (b & t & L & E). exists b, t. split; [exact L|]. split; [exact E|].
    rewrite (parse_literal _ _ _ L) in H. subst n. destruct (N.leb_spec (reading b t) maxu64) as [X|X]; [|discriminate].
    change (2 ^ 64)%N with (maxu64 + 1)%N. lia.
  - intros (b & t & L & -> & X). rewrite (parse_literal _ _ _ L). change (2 ^ 64)%N with (maxu64 + 1)%N in X.
    destruct (N.leb_spec (reading b t) maxu64); [reflexivity|lia].
Qed.
Theorem uint_over s b t : literal s b t -> (2 ^ 64 <= reading b t)%N -> SmartParseUint s = ((2 ^ 64 - 1)%N, false).
Proof.
  intros L X. unfold SmartParseUint. rewrite (parse_literal _ _ _ L). change (2 ^ 64)%N with (maxu64 + 1)%N in *.
  destruct (N.leb_spec (reading b t) maxu64); [lia|]. reflexivity.
Qed.
Theorem uint_signed c s : c = 43%N \/ c = 45%N -> SmartParseUint (c :: s) = (0%N, false).
Proof. intros [->| ->]; reflexivity. Qed.

(** ** numbers written in decimal are read back *)
Lemma reading_snoc b t c d : numeral c = Some d -> reading b (t ++ [c]) = (reading b t * b + d)%N.
Proof. intros H. unfold reading. rewrite fold_left_app. cbn [fold_left]. now rewrite H. Qed.
Lemma digits_snoc b t c : digits b t -> digit_in b c = true -> digits b (t ++ [c]).
Proof. intros D H. induction D; cbn [app]; [apply ds_more; [auto|now apply ds_one]|now apply ds_more|now apply ds_under]. Qed.
Lemma dec_digit n : numeral (48 + n mod 10) = Some (n mod 10)%N.
Proof.
  assert (n mod 10 < 10)%N by (apply N.mod_lt; discriminate). unfold numeral.
  destruct (N.leb_spec 48 (48 + n mod 10)); [|lia]. destruct (N.leb_spec (48 + n mod 10) 57); [|lia]. cbn [andb]. f_equal. lia.
Qed.
Lemma dec_in n : digit_in 10 (48 + n mod 10) = true.
Proof. unfold digit_in. rewrite dec_digit. apply N.ltb_lt. apply N.mod_lt. discriminate. Qed.
Lemma digits_go_spec : forall f n acc, (n < 10 ^ N.of_nat f)%N -> f <> 0%nat ->
  exists ds, digits_go f n acc = ds ++ acc /\ digits 10 ds /\ reading 10 ds = n /\ (n <> 0%N -> hd 0%N ds <> 48%N) /\ (n = 0%N -> ds = [48%N]).
Proof.
  induction f as [|f IH]; intros n acc L F; [congruence|]. cbn [digits_go].
  destruct (N.eqb_spec (n / 10) 0) as [E|E].
  - exists [48 + n mod 10]%N. assert (EM : (n mod 10 = n)%N) by (pose proof (N.div_mod n 10 ltac:(discriminate)); lia).
    split; [reflexivity|]. split; [apply ds_one, dec_in|]. split.
    + unfold reading. cbn [fold_left]. rewrite dec_digit. lia.
    + rewrite EM. split; [intros NZ; cbn [hd]; lia|]. now intros ->.
  - assert (L' : (n / 10 < 10 ^ N.of_nat f)%N).
    { apply N.div_lt_upper_bound; [discriminate|]. rewrite Nat2N.inj_succ, N.pow_succ_r' in L. exact L. }
    assert (F' : f <> 0%nat) by (intros ->; cbn in L'; apply E; lia).
    destruct (IH (n / 10)%N ((48 + n mod 10)%N :: acc) L' F') as (ds & E1 & D & R & H1 & _).
    exists (ds ++ [48 + n mod 10]%N). split; [rewrite E1, <- app_assoc; reflexivity|].
    split; [apply digits_snoc; auto; apply dec_in|]. split.
    + rewrite (reading_snoc _ _ _ _ (dec_digit n)), R. pose proof (N.div_mod n 10 ltac:(discriminate)). lia.
    + split; [intros _; destruct (digits_hd _ _ D) as (c & u & -> & _); apply H1; exact E|].
      intros ->. now destruct E.
Qed.
Lemma itoa_literal n : exists t, literal (itoa n) 10 t /\ reading 10 t = n.
Proof.
  unfold itoa. destruct (digits_go_spec (S (N.to_nat (N.log2 n))) n []) as (ds & E & D & R & H1 & H0); [|discriminate|].
  - rewrite Nat2N.inj_succ, N2Nat.id. destruct (N.eq_dec n 0) as [->|NZ]; [reflexivity|].
    apply N.lt_le_trans with (2 ^ N.succ (N.log2 n))%N; [apply N.log2_spec; lia|]. apply N.pow_le_mono_l. discriminate.
  - rewrite app_nil_r in E. rewrite E. exists ds. split; [|exact R]. destruct (N.eq_dec n 0) as [->|NZ].
    + rewrite (H0 eq_refl). exact l_zero.
    + apply l_dec; auto.
Qed.
Theorem int_written z : in64 z -> SmartParseInt (FormatInt z) = (z, true).
Proof.
  intros B. apply int_only. split; [|exact B]. unfold FormatInt. destruct (Z.ltb_spec z 0).
  - destruct (itoa_literal (Z.to_N (- z))) as (t & L & R).
    replace z with (- Z.of_N (reading 10 t)) at 2 by (rewrite R; lia). now apply it_minus.
  - destruct (itoa_literal (Z.to_N z)) as (t & L & R).
    replace z with (Z.of_N (reading 10 t)) at 2 by (rewrite R; lia). now apply it_plain.
Qed.
Theorem uint_written n : (n < 2 ^ 64)%N -> SmartParseUint (itoa n) = (n, true).
Proof. intros B. destruct (itoa_literal n) as (t & L & R). apply uint_only. exists 10%N, t. auto. Qed.
(** the variants without an error *)
Theorem must_int s z : int_text s z -> MustSmartParseInt s = clamp z.
Proof. intros H. pose proof (int_reads s z H) as E. unfold SmartParseInt in E. unfold MustSmartParseInt. now rewrite E. Qed.
Theorem must_uint s b t : literal s b t -> MstSmartParseUint s = N.min (reading b t) (2 ^ 64 - 1).
Proof.
  intros H. unfold MstSmartParseUint. rewrite (parse_literal _ _ _ H). change (2 ^ 64 - 1)%N with maxu64.
  destruct (N.leb_spec (reading b t) maxu64); lia.
Qed.
(** a literal has digits, letters, signs and underscores only *)
Lemma digits_chars b t c : digits b t -> In c t -> c = 95%N \/ numeral c <> None.
Proof.
  assert (D1 : forall c, digit_in b c = true -> numeral c <> None) by (intros c' H X; unfold digit_in in H; rewrite X in H; discriminate).
  induction 1 as [c0 H|c0 t H D IH|c0 t H D IH]; cbn [In].
  - intros [<-|[]]. auto.
  - intros [<-|I0]; auto.
  - intros [<-|[<-|I0]]; auto.
Qed.
Lemma literal_chars s b t c : literal s b t -> In c s ->
  c = 95%N \/ numeral c <> None \/ In c [98; 66; 111; 79; 120; 88]%N.
Proof.
  assert (D : forall b t, digits b t -> In c t -> c = 95%N \/ numeral c <> None \/ In c [98; 66; 111; 79; 120; 88]%N)
    by (intros b0 t0 D I0; destruct (digits_chars b0 t0 c D I0); auto).
  destruct 1 as [t H _| |t H|t H|x b t X H|x b t X H]; cbn [In].
  - now apply (D 10%N).
  - intros [<-|[]]. right. left. discriminate.
  - intros [<-|I0]; [right; left; discriminate|eauto].
  - intros [<-|[<-|I0]]; [right; left; discriminate|auto|eauto].
  - apply (in_map fst) in X. intros [<-|[<-|I0]]; [right; left; discriminate|right; right; exact X|eauto].
  - apply (in_map fst) in X. intros [<-|[<-|[<-|I0]]]; [right; left; discriminate|right; right; exact X|auto|eauto].
Qed.
Lemma no_literal s c z : (match numeral c with None => negb ((c =? 95) || (c =? 43) || (c =? 45) || existsb (N.eqb c) [98; 66; 111; 79; 120; 88])%N | Some _ => false end) = true ->
  In c s -> ~ int_text s z.
Proof.
  intros H I0 T. destruct (numeral c) eqn:E; [discriminate|]. apply negb_true_iff in H.
  repeat (apply orb_false_iff in H; destruct H as [H ?H]). apply N.eqb_neq in H, H1, H2.
  assert (NI : forall s b t, literal s b t -> ~ In c s).
  { intros s0 b t L I1. destruct (literal_chars _ _ _ _ L I1) as [X|[X|X]]; [contradiction|contradiction|].
    assert (Y : existsb (N.eqb c) [98; 66; 111; 79; 120; 88]%N = true) by (apply existsb_exists; exists c; split; [exact X|apply N.eqb_refl]).
    congruence. }
  destruct T as [s b t L|s b t L|s b t L]; cbn [In] in I0.
  - exact (NI _ _ _ L I0).
  - destruct I0 as [X|I0]; [congruence|exact (NI _ _ _ L I0)].
  - destruct I0 as [X|I0]; [congruence|exact (NI _ _ _ L I0)].
Qed.
