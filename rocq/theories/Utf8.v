(** Facts about the string/rune conversions. *)
From Coq Require Import List NArith ZArith Bool Arith Lia ZifyBool ZifyNat ZifyN.
From Verif Require Import GoStr.
Import ListNotations.
Open Scope N_scope.
Ltac Zify.zify_post_hook ::= Z.div_mod_to_equations.

Lemma str_eqb_eq a b : str_eqb a b = true <-> a = b.
Proof. unfold str_eqb. destruct (list_eq_dec N.eq_dec a b); split; congruence. Qed.
Lemma str_eqb_refl a : str_eqb a a = true.
Proof. now apply str_eqb_eq. Qed.

Lemma length_ind {A} (P : list A -> Prop) :
  (forall l, (forall m, (length m < length l)%nat -> P m) -> P l) -> forall l, P l.
Proof.
  intros H l. remember (length l) as n. revert l Heqn.
  induction n as [n IH] using lt_wf_ind. intros l ->. apply H. intros m Hm. eapply IH; eauto.
Qed.

(** decoding steps: every string is empty or starts with one decoded rune *)
Inductive dec : gostring -> list rune -> Prop :=
| dec_nil : dec [] []
| dec_1 b t r : b < 0x80 -> dec t r -> dec (b :: t) (b :: r)
| dec_2 b0 b1 t r :
    0xC2 <= b0 <= 0xDF -> is_cont b1 = true -> dec t r ->
    dec (b0 :: b1 :: t) ((b0 - 0xC0) * 64 + (b1 - 0x80) :: r)
| dec_3 b0 b1 b2 t r :
    0xE0 <= b0 <= 0xEF -> ok3 b0 b1 = true -> is_cont b2 = true -> dec t r ->
    dec (b0 :: b1 :: b2 :: t) ((b0 - 0xE0) * 4096 + (b1 - 0x80) * 64 + (b2 - 0x80) :: r)
| dec_4 b0 b1 b2 b3 t r :
    0xF0 <= b0 <= 0xF4 -> ok4 b0 b1 = true -> is_cont b2 = true -> is_cont b3 = true -> dec t r ->
    dec (b0 :: b1 :: b2 :: b3 :: t)
        ((b0 - 0xF0) * 262144 + (b1 - 0x80) * 4096 + (b2 - 0x80) * 64 + (b3 - 0x80) :: r)
| dec_bad b0 t r :
    0x80 <= b0 -> dec t r ->
    (0xC2 <= b0 <= 0xDF -> match t with b1 :: _ => is_cont b1 = false | [] => True end) ->
    (0xE0 <= b0 <= 0xEF ->
       match t with b1 :: b2 :: _ => ok3 b0 b1 && is_cont b2 = false | _ => True end) ->
    (0xF0 <= b0 <= 0xF4 ->
       match t with b1 :: b2 :: b3 :: _ => ok4 b0 b1 && is_cont b2 && is_cont b3 = false
                  | _ => True end) ->
    dec (b0 :: t) (RuneError :: r).

Lemma dec_runes s : dec s (runes s).
Proof.
  induction s as [s IH] using length_ind. destruct s as [|b0 t0]; [constructor|].
  assert (D0 : dec t0 (runes t0)) by (apply IH; cbn; lia).
  cbn [runes]. destruct (N.ltb_spec b0 0x80); [now constructor|].
  destruct ((0xC2 <=? b0) && (b0 <=? 0xDF)) eqn:E2.
  { destruct t0 as [|b1 t1]; [apply dec_bad; auto; lia|].
    destruct (is_cont b1) eqn:C1.
    - apply dec_2; auto; [lia|]. apply IH; cbn; lia.
    - apply dec_bad; auto; lia. }
  destruct ((0xE0 <=? b0) && (b0 <=? 0xEF)) eqn:E3.
  { destruct t0 as [|b1 [|b2 t2]]; try (apply dec_bad; auto; lia).
    destruct (ok3 b0 b1 && is_cont b2) eqn:C.
    - apply andb_true_iff in C. apply dec_3; try tauto; [lia|]. apply IH; cbn; lia.
    - apply dec_bad; auto; lia. }
  destruct ((0xF0 <=? b0) && (b0 <=? 0xF4)) eqn:E4.
  { destruct t0 as [|b1 [|b2 [|b3 t3]]]; try (apply dec_bad; auto; lia).
    destruct (ok4 b0 b1 && is_cont b2 && is_cont b3) eqn:C.
    - apply andb_true_iff in C. destruct C as [C C3]. apply andb_true_iff in C.
      apply dec_4; try tauto; [lia|]. apply IH; cbn; lia.
    - apply dec_bad; auto; lia. }
  apply dec_bad; auto; lia.
Qed.

Lemma runes_dec s r : dec s r -> runes s = r.
Proof.
  induction 1 as [|b t r H _ IH|b0 b1 t r H H1 _ IH|b0 b1 b2 t r H H1 H2 _ IH
                  |b0 b1 b2 b3 t r H H1 H2 H3 _ IH|b0 t r H _ IH H2 H3 H4]; [reflexivity|..];
    cbn [runes].
  - destruct (N.ltb_spec b 0x80); [congruence|lia].
  - destruct (N.ltb_spec b0 0x80); [lia|].
    replace ((0xC2 <=? b0) && (b0 <=? 0xDF)) with true by lia. rewrite H1. congruence.
  - destruct (N.ltb_spec b0 0x80); [lia|].
    replace ((0xC2 <=? b0) && (b0 <=? 0xDF)) with false by lia.
    replace ((0xE0 <=? b0) && (b0 <=? 0xEF)) with true by lia.
    rewrite H1, H2. cbn [andb]. congruence.
  - destruct (N.ltb_spec b0 0x80); [lia|].
    replace ((0xC2 <=? b0) && (b0 <=? 0xDF)) with false by lia.
    replace ((0xE0 <=? b0) && (b0 <=? 0xEF)) with false by lia.
    replace ((0xF0 <=? b0) && (b0 <=? 0xF4)) with true by lia.
    rewrite H1, H2, H3. cbn [andb]. congruence.
  - destruct (N.ltb_spec b0 0x80); [lia|].
    destruct ((0xC2 <=? b0) && (b0 <=? 0xDF)) eqn:E2.
    { destruct t as [|b1 t1]; [congruence|]. rewrite H2 by lia. congruence. }
    destruct ((0xE0 <=? b0) && (b0 <=? 0xEF)) eqn:E3.
    { destruct t as [|b1 [|b2 t2]]; try congruence. rewrite H3 by lia. congruence. }
    destruct ((0xF0 <=? b0) && (b0 <=? 0xF4)) eqn:E4.
    { destruct t as [|b1 [|b2 [|b3 t3]]]; try congruence. rewrite H4 by lia. congruence. }
    congruence.
Qed.

Lemma runes_length s : (length (runes s) <= length s)%nat.
Proof. induction (dec_runes s); cbn; lia. Qed.

Lemma runes_nil_iff s : runes s = [] <-> s = [].
Proof. split; [|now intros ->]. pose proof (dec_runes s) as D. destruct D; congruence. Qed.

Lemma runes_scalar s : Forall (fun r => is_scalar r = true) (runes s).
Proof.
  induction (dec_runes s); constructor; auto; unfold is_scalar, ok3, ok4, is_cont in *.
  - lia.
  - lia.
  - destruct (N.eqb_spec b0 0xE0); [lia|]. destruct (N.eqb_spec b0 0xED); lia.
  - destruct (N.eqb_spec b0 0xF0); [lia|]. destruct (N.eqb_spec b0 0xF4); lia.
Qed.

Lemma dec_enc1 r t rs : is_scalar r = true -> dec t rs -> dec (enc1 r ++ t) (r :: rs).
Proof.
  intros Hs D. unfold enc1. rewrite Hs. unfold enc1_valid, is_scalar in *.
  destruct (N.ltb_spec r 0x80); [now constructor|].
  destruct (N.ltb_spec r 0x800).
  { replace r with ((0xC0 + r / 64 - 0xC0) * 64 + (0x80 + r mod 64 - 0x80)) at 3 by lia.
    apply dec_2; auto; unfold is_cont; lia. }
  destruct (N.ltb_spec r 0x10000).
  { replace r with ((0xE0 + r / 4096 - 0xE0) * 4096 + (0x80 + (r / 64) mod 64 - 0x80) * 64
                    + (0x80 + r mod 64 - 0x80)) at 4 by lia.
    apply dec_3; auto; unfold is_cont, ok3; try lia.
    destruct (N.eqb_spec (0xE0 + r / 4096) 0xE0); [lia|].
    destruct (N.eqb_spec (0xE0 + r / 4096) 0xED); unfold is_cont; lia. }
  replace r with ((0xF0 + r / 262144 - 0xF0) * 262144 + (0x80 + (r / 4096) mod 64 - 0x80) * 4096
                  + (0x80 + (r / 64) mod 64 - 0x80) * 64 + (0x80 + r mod 64 - 0x80)) at 5 by lia.
  apply dec_4; auto; unfold is_cont, ok4; try lia.
  destruct (N.eqb_spec (0xF0 + r / 262144) 0xF0); [lia|].
  destruct (N.eqb_spec (0xF0 + r / 262144) 0xF4); unfold is_cont; lia.
Qed.

Lemma of_runes_cons r t : of_runes (r :: t) = enc1 r ++ of_runes t.
Proof. reflexivity. Qed.
Lemma of_runes_app a b : of_runes (a ++ b) = of_runes a ++ of_runes b.
Proof. apply flat_map_app. Qed.

Lemma runes_of_runes rs : Forall (fun r => is_scalar r = true) rs -> runes (of_runes rs) = rs.
Proof.
  intros H. apply runes_dec. induction H; [constructor|].
  rewrite of_runes_cons. now apply dec_enc1.
Qed.

(** valid strings are the encodings of scalar sequences *)
Lemma valid_utf8_eq s : valid_utf8 s = true <-> of_runes (runes s) = s.
Proof. unfold valid_utf8. apply str_eqb_eq. Qed.
Lemma valid_of_runes rs : Forall (fun r => is_scalar r = true) rs -> valid_utf8 (of_runes rs) = true.
Proof. intros H. apply valid_utf8_eq. now rewrite runes_of_runes. Qed.
Lemma valid_runes_inj a b :
  valid_utf8 a = true -> valid_utf8 b = true -> runes a = runes b -> a = b.
Proof. rewrite !valid_utf8_eq. congruence. Qed.

(** ASCII strings *)
Lemma ascii_runes s : ascii s = true -> runes s = s.
Proof.
  intros H. apply runes_dec. unfold ascii in H. induction s as [|b s IH]; [constructor|].
  cbn in H. apply andb_true_iff in H. destruct H. constructor; [lia|auto].
Qed.
Lemma ascii_of_runes s : ascii s = true -> of_runes s = s.
Proof.
  unfold ascii. induction s as [|b s IH]; [reflexivity|]. cbn [forallb].
  intros H. apply andb_true_iff in H. destruct H. rewrite of_runes_cons, IH by assumption.
  unfold enc1, enc1_valid, is_scalar. replace (b <? 0xD800) with true by lia. cbn [orb].
  replace (b <? 0x80) with true by lia. reflexivity.
Qed.
Lemma ascii_valid s : ascii s = true -> valid_utf8 s = true.
Proof. intros H. apply valid_utf8_eq. rewrite ascii_runes by assumption. now apply ascii_of_runes. Qed.

(** decoding is compositional in front of an ASCII byte *)
Lemma runes_app_ascii a c b : c < 0x80 -> runes (a ++ c :: b) = runes a ++ c :: runes b.
Proof.
  intros Hc. apply runes_dec. pose proof (dec_runes b) as Db. set (rb := runes b) in *. clearbody rb.
  assert (Dc : dec (c :: b) (c :: rb)) by now constructor.
  induction (dec_runes a) as [| | | | |b0 t r Hb Dt IHd P2 P3 P4]; cbn [app].
  - exact Dc.
  - now constructor.
  - now constructor.
  - now constructor.
  - now constructor.
  - apply dec_bad; auto.
    + intros H. specialize (P2 H). destruct t; cbn [app]; auto. unfold is_cont. lia.
    + intros H. specialize (P3 H).
      assert (X : is_cont c = false) by (unfold is_cont; lia).
      destruct t as [|t0 [|t1 t2]]; cbn [app]; auto.
      * destruct b; auto. unfold ok3. rewrite X.
        destruct (b0 =? 0xE0); [lia|]. destruct (b0 =? 0xED); lia.
      * rewrite X. apply andb_false_r.
    + intros H. specialize (P4 H).
      assert (X : is_cont c = false) by (unfold is_cont; lia).
      assert (Y : ok4 b0 c = false).
      { unfold ok4. rewrite X. destruct (b0 =? 0xF0); [lia|]. destruct (b0 =? 0xF4); lia. }
      destruct t as [|t0 [|t1 [|t2 t3]]]; cbn [app]; auto.
      * destruct b as [|? [|]]; auto. now rewrite Y.
      * destruct b; auto. rewrite X. now rewrite andb_false_r.
      * rewrite X. apply andb_false_r.
Qed.

(** replacing one ASCII byte by another commutes with decoding *)
Lemma runes_replace o n s :
  o < 0x80 -> n < 0x80 ->
  runes (replace_byte o n s) = map (fun b => if b =? o then n else b) (runes s).
Proof.
  intros Ho Hn. apply runes_dec. unfold replace_byte. set (f := fun b => if b =? o then n else b).
  assert (Fhi : forall b, 0x80 <= b -> f b = b)
    by (intros b Hb; unfold f; destruct (N.eqb_spec b o); lia).
  assert (Fc : forall b, is_cont b = true -> f b = b)
    by (intros b Hb; apply Fhi; unfold is_cont in Hb; lia).
  assert (F3 : forall a b, ok3 a b = true -> f b = b).
  { intros a b Hb. apply Fhi. unfold ok3, is_cont in Hb.
    destruct (a =? 0xE0); [lia|]. destruct (a =? 0xED); lia. }
  assert (F4 : forall a b, ok4 a b = true -> f b = b).
  { intros a b Hb. apply Fhi. unfold ok4, is_cont in Hb.
    destruct (a =? 0xF0); [lia|]. destruct (a =? 0xF4); lia. }
  assert (Flo : forall b, f b <> b -> f b < 0x80)
    by (intros b; unfold f; destruct (b =? o); lia).
  assert (Gc : forall b, is_cont (f b) = is_cont b).
  { intros b. destruct (N.eq_dec (f b) b) as [->|E]; auto. pose proof (Flo b E).
    unfold f in *. destruct (N.eqb_spec b o); [|lia]. unfold is_cont. lia. }
  assert (G3 : forall a b, ok3 a (f b) = ok3 a b).
  { intros a b. destruct (N.eq_dec (f b) b) as [->|E]; auto. pose proof (Flo b E).
    unfold ok3. rewrite Gc. unfold f in *. destruct (N.eqb_spec b o); [|lia].
    destruct (a =? 0xE0); [lia|]. destruct (a =? 0xED); (reflexivity || lia). }
  assert (G4 : forall a b, ok4 a (f b) = ok4 a b).
  { intros a b. destruct (N.eq_dec (f b) b) as [->|E]; auto. pose proof (Flo b E).
    unfold ok4. rewrite Gc. unfold f in *. destruct (N.eqb_spec b o); [|lia].
    destruct (a =? 0xF0); [lia|]. destruct (a =? 0xF4); (reflexivity || lia). }
  assert (Fs : forall x, 0x80 <= x -> f x = x) by exact Fhi.
  induction (dec_runes s) as [|b t r H _ IH|b0 b1 t r H H1 _ IH|b0 b1 b2 t r H H1 H2 _ IH
                  |b0 b1 b2 b3 t r H H1 H2 H3 _ IH|b0 t r H _ IH P2 P3 P4]; cbn [map].
  - constructor.
  - apply dec_1; auto. unfold f. destruct (b =? o); lia.
  - rewrite (Fhi b0), (Fc b1) by (auto; lia).
    rewrite Fhi by lia. now apply dec_2.
  - rewrite (Fhi b0), (F3 b0 b1), (Fc b2) by (auto; lia).
    rewrite Fhi; [now apply dec_3|]. unfold ok3, is_cont in *.
    destruct (N.eqb_spec b0 0xE0); [lia|]. destruct (N.eqb_spec b0 0xED); lia.
  - rewrite (Fhi b0), (F4 b0 b1), (Fc b2), (Fc b3) by (auto; lia).
    rewrite Fhi; [now apply dec_4|]. unfold ok4, is_cont in *.
    destruct (N.eqb_spec b0 0xF0); [lia|]. destruct (N.eqb_spec b0 0xF4); lia.
  - rewrite (Fhi b0) by lia. rewrite (Fhi RuneError) by (unfold RuneError; lia).
    apply dec_bad; auto.
    + intros X. specialize (P2 X). destruct t; cbn [map]; auto. now rewrite Gc.
    + intros X. specialize (P3 X). destruct t as [|? [|]]; cbn [map]; auto. now rewrite G3, Gc.
    + intros X. specialize (P4 X). destruct t as [|? [|? [|]]]; cbn [map]; auto.
      now rewrite G4, !Gc.
Qed.
