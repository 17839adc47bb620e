(** Keys as byte strings: which ones are the same key.  The conversion []rune(s) of the model agrees with UTF-8 as the
    standard defines it, stated with bits instead of ranges of bytes. *)
From Coq Require Import List NArith ZArith Bool Arith Lia ZifyBool ZifyNat ZifyN.
From Verif Require Import GoStr Utf8 Node Trie Spec TreeOps Refine ApiRefine Reach Derived Derived4 Derived5.
Import ListNotations.
Open Scope N_scope.
Ltac Zify.zify_post_hook ::= Z.div_mod_to_equations.

(** the encodings of the scalar values: the shortest one, no surrogates, nothing beyond U+10FFFF *)
Inductive encodes : N -> list N -> Prop :=
| en_1 r : r < 0x80 -> encodes r [r]
| en_2 a b : a < 32 -> b < 64 -> 0x80 <= a * 64 + b -> encodes (a * 64 + b) [0xC0 + a; 0x80 + b]
| en_3 a b c : a < 16 -> b < 64 -> c < 64 ->
    0x800 <= a * 4096 + b * 64 + c -> ~ 0xD800 <= a * 4096 + b * 64 + c <= 0xDFFF ->
    encodes (a * 4096 + b * 64 + c) [0xE0 + a; 0x80 + b; 0x80 + c]
| en_4 a b c e : a < 8 -> b < 64 -> c < 64 -> e < 64 ->
    0x10000 <= a * 262144 + b * 4096 + c * 64 + e <= 0x10FFFF ->
    encodes (a * 262144 + b * 4096 + c * 64 + e) [0xF0 + a; 0x80 + b; 0x80 + c; 0x80 + e].
(** reading a byte string: encodings one after the other; a byte at which none starts counts as U+FFFD *)
Inductive reads : list N -> list N -> Prop :=
| rd_nil : reads [] []
| rd_rune r l t rs : encodes r l -> reads t rs -> reads (l ++ t) (r :: rs)
| rd_bad b t rs : (forall r l u, encodes r l -> b :: t <> l ++ u) -> reads t rs -> reads (b :: t) (0xFFFD :: rs).
(** well-formed strings: encodings only *)
Inductive well : list N -> Prop :=
| well_nil : well []
| well_rune r l t : encodes r l -> well t -> well (l ++ t).
(** two byte strings that read the same *)
Definition same_key (p q : gostring) : Prop := exists rs, reads p rs /\ reads q rs.

Lemma encodes_dec r l t rs : encodes r l -> dec t rs -> dec (l ++ t) (r :: rs).
Proof.
  intros E D. destruct E as [r H|a b Ha Hb H|a b c Ha Hb Hc H1 H2|a b c e Ha Hb Hc He H]; cbn [app].
  - now constructor.
  - replace (a * 64 + b) with ((0xC0 + a - 0xC0) * 64 + (0x80 + b - 0x80)) by lia.
    apply dec_2; auto; unfold is_cont; lia.
  - replace (a * 4096 + b * 64 + c) with ((0xE0 + a - 0xE0) * 4096 + (0x80 + b - 0x80) * 64 + (0x80 + c - 0x80)) by lia.
    apply dec_3; auto; unfold is_cont, ok3; try lia.
    destruct (N.eqb_spec (0xE0 + a) 0xE0); [lia|]. destruct (N.eqb_spec (0xE0 + a) 0xED); unfold is_cont; lia.
  - replace (a * 262144 + b * 4096 + c * 64 + e)
      with ((0xF0 + a - 0xF0) * 262144 + (0x80 + b - 0x80) * 4096 + (0x80 + c - 0x80) * 64 + (0x80 + e - 0x80)) by lia.
    apply dec_4; auto; unfold is_cont, ok4; try lia.
    destruct (N.eqb_spec (0xF0 + a) 0xF0); [lia|]. destruct (N.eqb_spec (0xF0 + a) 0xF4); unfold is_cont; lia.
Qed.
Lemma enc_2 b0 b1 : 0xC2 <= b0 <= 0xDF -> is_cont b1 = true -> encodes ((b0 - 0xC0) * 64 + (b1 - 0x80)) [b0; b1].
Proof.
  intros H C. unfold is_cont in C. replace [b0; b1] with [0xC0 + (b0 - 0xC0); 0x80 + (b1 - 0x80)] by (repeat f_equal; lia).
  apply en_2; lia.
Qed.
Lemma enc_3 b0 b1 b2 : 0xE0 <= b0 <= 0xEF -> ok3 b0 b1 = true -> is_cont b2 = true ->
  encodes ((b0 - 0xE0) * 4096 + (b1 - 0x80) * 64 + (b2 - 0x80)) [b0; b1; b2].
Proof.
  intros H O C. unfold ok3, is_cont in *.
  replace [b0; b1; b2] with [0xE0 + (b0 - 0xE0); 0x80 + (b1 - 0x80); 0x80 + (b2 - 0x80)]
    by (destruct (N.eqb_spec b0 0xE0); [|destruct (N.eqb_spec b0 0xED)]; repeat f_equal; lia).
  apply en_3; destruct (N.eqb_spec b0 0xE0); [lia| | lia| |lia| |lia| |lia|]; destruct (N.eqb_spec b0 0xED); lia.
Qed.
Lemma enc_4 b0 b1 b2 b3 : 0xF0 <= b0 <= 0xF4 -> ok4 b0 b1 = true -> is_cont b2 = true -> is_cont b3 = true ->
  encodes ((b0 - 0xF0) * 262144 + (b1 - 0x80) * 4096 + (b2 - 0x80) * 64 + (b3 - 0x80)) [b0; b1; b2; b3].
Proof.
  intros H O C C'. unfold ok4, is_cont in *.
  replace [b0; b1; b2; b3] with [0xF0 + (b0 - 0xF0); 0x80 + (b1 - 0x80); 0x80 + (b2 - 0x80); 0x80 + (b3 - 0x80)]
    by (destruct (N.eqb_spec b0 0xF0); [|destruct (N.eqb_spec b0 0xF4)]; repeat f_equal; lia).
  apply en_4; destruct (N.eqb_spec b0 0xF0); [lia| |lia| |lia| |lia| |lia|]; destruct (N.eqb_spec b0 0xF4); lia.
Qed.
Lemma enc_of r l : encodes r l -> l = enc1 r /\ is_scalar r = true.
Proof.
  intros E. assert (D : dec l [r]) by (rewrite <- (app_nil_r l); apply encodes_dec; [exact E|constructor]).
  pose proof (runes_dec _ _ D) as R. pose proof (runes_scalar l) as F. rewrite R in F. inversion F as [|? ? HS _]; subst.
  split; [|exact HS]. unfold enc1. rewrite HS. unfold enc1_valid. destruct E as [r H|a b Ha Hb H|a b c Ha Hb Hc H1 H2|a b c e Ha Hb Hc He H].
  - destruct (N.ltb_spec r 0x80); [reflexivity|lia].
  - destruct (N.ltb_spec (a * 64 + b) 0x80); [lia|]. destruct (N.ltb_spec (a * 64 + b) 0x800); [|lia]. repeat f_equal; lia.
  - destruct (N.ltb_spec (a * 4096 + b * 64 + c) 0x80); [lia|]. destruct (N.ltb_spec (a * 4096 + b * 64 + c) 0x800); [lia|].
    destruct (N.ltb_spec (a * 4096 + b * 64 + c) 0x10000); [|lia]. repeat f_equal; lia.
  - destruct (N.ltb_spec (a * 262144 + b * 4096 + c * 64 + e) 0x80); [lia|]. destruct (N.ltb_spec (a * 262144 + b * 4096 + c * 64 + e) 0x800); [lia|].
    destruct (N.ltb_spec (a * 262144 + b * 4096 + c * 64 + e) 0x10000); [lia|]. repeat f_equal; lia.
Qed.
Lemma enc_is r : is_scalar r = true -> encodes r (enc1 r).
Proof.
  intros HS. unfold enc1. rewrite HS. unfold enc1_valid, is_scalar in *.
  destruct (N.ltb_spec r 0x80); [now constructor|].
  destruct (N.ltb_spec r 0x800).
  { replace r with ((r / 64) * 64 + r mod 64) at 1 by lia. apply en_2; lia. }
  destruct (N.ltb_spec r 0x10000).
  { replace r with ((r / 4096) * 4096 + ((r / 64) mod 64) * 64 + r mod 64) at 1 by lia. apply en_3; lia. }
  replace r with ((r / 262144) * 262144 + ((r / 4096) mod 64) * 4096 + ((r / 64) mod 64) * 64 + r mod 64) at 1 by lia.
  apply en_4; lia.
Qed.
Lemma reads_dec s rs : reads s rs -> dec s rs.
Proof.
  induction 1 as [|r l t rs E R IH|b t rs B R IH]; [constructor|now apply encodes_dec|].
  apply dec_bad; auto.
  - destruct (N.lt_ge_cases b 0x80) as [L|G]; [|exact G]. exfalso. eapply (B b [b] t); [now constructor|reflexivity].
  - intros Hb. destruct t as [|b1 t]; [exact I|]. destruct (is_cont b1) eqn:C; [|reflexivity].
    exfalso. eapply (B _ [b; b1] t); [now apply enc_2|reflexivity].
  - intros Hb. destruct t as [|b1 [|b2 t]]; try exact I. destruct (ok3 b b1) eqn:O; [|reflexivity]. destruct (is_cont b2) eqn:C; [|reflexivity].
    exfalso. eapply (B _ [b; b1; b2] t); [now apply enc_3|reflexivity].
  - intros Hb. destruct t as [|b1 [|b2 [|b3 t]]]; try exact I. destruct (ok4 b b1) eqn:O; [|reflexivity]. destruct (is_cont b2) eqn:C; [|reflexivity].
    destruct (is_cont b3) eqn:C3; [|reflexivity].
    exfalso. eapply (B _ [b; b1; b2; b3] t); [now apply enc_4|reflexivity].
Qed.
Lemma dec_reads s rs : dec s rs -> reads s rs.
Proof.
  induction 1 as [|b t r H _ IH|b0 b1 t r H H1 _ IH|b0 b1 b2 t r H H1 H2 _ IH
                  |b0 b1 b2 b3 t r H H1 H2 H3 _ IH|b0 t r H _ IH H2 H3 H4].
  - constructor.
  - apply (rd_rune b [b]); [now constructor|exact IH].
  - apply (rd_rune _ [b0; b1]); [now apply enc_2|exact IH].
  - apply (rd_rune _ [b0; b1; b2]); [now apply enc_3|exact IH].
  - apply (rd_rune _ [b0; b1; b2; b3]); [now apply enc_4|exact IH].
  - apply rd_bad; [|exact IH]. intros r' l u E X.
    destruct E as [r' Hr|a b Ha Hb Hr|a b c Ha Hb Hc Hr1 Hr2|a b c e Ha Hb Hc He Hr]; cbn [app] in X;
      pose proof (f_equal (hd 0) X) as X0; pose proof (f_equal (@tl N) X) as X1; cbn [hd tl] in X0, X1; clear X; subst b0 t.
    + lia.
    + assert (Y : is_cont (0x80 + b) = false) by (apply H2; lia). unfold is_cont in Y. lia.
    + assert (Y : ok3 (0xE0 + a) (0x80 + b) && is_cont (0x80 + c) = false) by (apply H3; lia). unfold ok3, is_cont in Y.
      destruct (N.eqb_spec (0xE0 + a) 0xE0); [lia|]. destruct (N.eqb_spec (0xE0 + a) 0xED); lia.
    + assert (Y : ok4 (0xF0 + a) (0x80 + b) && is_cont (0x80 + c) && is_cont (0x80 + e) = false) by (apply H4; lia). unfold ok4, is_cont in Y.
      destruct (N.eqb_spec (0xF0 + a) 0xF0); [lia|]. destruct (N.eqb_spec (0xF0 + a) 0xF4); lia.
Qed.
Theorem runes_reads s rs : runes s = rs <-> reads s rs.
Proof. split; [intros <-; apply dec_reads, dec_runes|]. intros R. now apply runes_dec, reads_dec. Qed.
Theorem valid_well s : valid_utf8 s = true <-> well s.
Proof.
  rewrite valid_utf8_eq. split.
  - intros <-. pose proof (runes_scalar s) as F. induction F as [|r rs HS F IH]; [constructor|].
    rewrite of_runes_cons. apply (well_rune r); [now apply enc_is|exact IH].
  - intros W. assert (X : exists rs, Forall (fun r => is_scalar r = true) rs /\ s = of_runes rs).
    { induction W as [|r l t E W (rs & F & ->)]; [exists []; auto|]. exists (r :: rs). destruct (enc_of _ _ E) as [-> HS]. auto. }
    destruct X as (rs & F & ->). now rewrite runes_of_runes.
Qed.
(** the text of a rune list and back *)
Theorem text_encodes rs s : Forall2 encodes rs s -> of_runes rs = concat s.
Proof. induction 1 as [|r l rs s E _ IH]; [reflexivity|]. rewrite of_runes_cons. cbn [concat]. rewrite IH. f_equal. symmetry. now apply enc_of. Qed.
Lemma same_runes p q : same_key p q <-> runes p = runes q.
Proof.
  split.
  - intros (rs & A & B). apply runes_reads in A, B. congruence.
  - intros E. exists (runes p). split; apply runes_reads; auto.
Qed.
Theorem same_lookup rf h t p q : hmode h <> ModeUp -> same_key (full h p) (full h q) ->
  Query rf h t p = Query rf h t q /\ Has rf h t p = Has rf h t q /\ Locate rf h t p = Locate rf h t q /\ RemoveEx rf h t p = RemoveEx rf h t q.
Proof.
  intros M S. apply same_runes in S.
  assert (E : search rf h t (full h p) = search rf h t (full h q)).
  { unfold search, probe. rewrite S. destruct (matchR rf (hdelim h) (root t) (runes (full h q)) false None []) as [r| |]; cbn [bind]; try reflexivity.
    destruct (m_matched r || m_partial r); [reflexivity|]. destruct (hmode h); [reflexivity|congruence|reflexivity]. }
  unfold Query, Has, Locate, RemoveEx. rewrite E. auto.
Qed.
Theorem same_set D rf h t p q v t' old calls :
  plain_reach D t -> D (hdelim h) -> op_plain D (full h) (OSetEx p v) -> hmode h <> ModeUp ->
  SetEx h t p v = Ok (t', old, calls) -> same_key (full h p) (full h q) ->
  exists r, Query (S rf) h t' q = Ok r /\ q_data r = v.
Proof.
  intros R Dd P M E S. destruct (setex_get D rf h t p v R Dd P) as (t2 & old2 & calls2 & r & E2 & Q & V).
  rewrite E in E2. inversion E2. subst. exists r. split; [|reflexivity]. rewrite <- Q. symmetry.
  now apply (same_lookup (Datatypes.S rf) h t2 p q).
Qed.
Theorem same_apart h t p q v t' old calls rs a :
  reached t -> SetEx h t p v = Ok (t', old, calls) -> ~ same_key (full h p) (full h q) -> reads (full h q) rs ->
  t_get t rs = Some a -> t_get t' rs = Some a.
Proof.
  intros R E NS Hq G. apply runes_reads in Hq. subst rs.
  assert (NE : runes (full h q) <> runes (full h p)) by (intros X; apply NS; now apply same_runes).
  eapply (write_frame 0 h t (OSetEx p v) t' _ _ a (full h p)); eauto.
  cbn [t_step]. rewrite E. reflexivity.
Qed.
Theorem same_well p q : well p -> well q -> same_key p q -> p = q.
Proof. intros A B S. apply valid_well in A, B. apply same_runes in S. now apply valid_runes_inj. Qed.
