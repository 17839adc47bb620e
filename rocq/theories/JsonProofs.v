(** When MarshalJSON writes JSON: a reader of JSON texts made of objects and strings, and what it finds. *)
From Coq Require Import String.
From Coq Require Import List NArith ZArith Bool Arith Lia ZifyBool ZifyNat ZifyN.
From Verif Require Import GoStr Utf8 Trie Misc CvtProofs Text.
Import ListNotations.
Open Scope N_scope.
Open Scope list_scope.
Ltac Zify.zify_post_hook ::= Z.div_mod_to_equations.

(** ** JSON, RFC 8259, without numbers, arrays and literals *)
Inductive json := JStr (s : gostring) | JObj (ms : list (gostring * json)).
Definition is_ws (c : N) : bool := (c =? 32) || (c =? 9) || (c =? 10) || (c =? 13).
Fixpoint ws (s : gostring) : gostring :=
  match s with c :: t => if is_ws c then ws t else s | [] => [] end.
Definition hexval (c : N) : option N :=
  if (48 <=? c) && (c <=? 57) then Some (c - 48)
  else if (97 <=? c) && (c <=? 102) then Some (c - 87)
  else if (65 <=? c) && (c <=? 70) then Some (c - 55) else None.
Definition hex4 (a b c d : N) : option N :=
  match hexval a, hexval b, hexval c, hexval d with
  | Some a, Some b, Some c, Some d => Some (((a * 16 + b) * 16 + c) * 16 + d)
  | _, _, _, _ => None
  end.
(** the character an escape stands for: quote, backslash, slash, b f n r t *)
Definition esc_char (e : N) : option N :=
  if (e =? 34) || (e =? 92) || (e =? 47) then Some e
  else if e =? 98 then Some 8 else if e =? 102 then Some 12 else if e =? 110 then Some 10
  else if e =? 114 then Some 13 else if e =? 116 then Some 9 else None.
Definition prepend (u : gostring) (r : option (gostring * gostring)) : option (gostring * gostring) :=
  match r with Some (x, t) => Some (u ++ x, t) | None => None end.
(** a string after its opening quote: the characters and what follows the closing one *)
Fixpoint jstr (s : gostring) : option (gostring * gostring) :=
  match s with
  | [] => None
  | c :: t =>
      if c =? 34 then Some ([], t)
      else if c =? 92 then
        match t with
        | [] => None
        | e :: t1 =>
            if e =? 117 then
              match t1 with
              | a :: b :: c :: d :: t2 =>
                  match hex4 a b c d with Some r => prepend (enc1 r) (jstr t2) | None => None end
              | _ => None
              end
            else match esc_char e with Some x => prepend [x] (jstr t1) | None => None end
        end
      else if c <? 32 then None
      else prepend [c] (jstr t)
  end.
Fixpoint jval (f : nat) (s : gostring) : option (json * gostring) :=
  match f with
  | O => None
  | S f =>
      match ws s with
      | c :: t =>
          if c =? 34 then match jstr t with Some (x, r) => Some (JStr x, r) | None => None end
          else if c =? 123 then
            match ws t with
            | c' :: t' => if c' =? 125 then Some (JObj [], t') else jmems f t []
            | [] => None
            end
          else None
      | [] => None
      end
  end
with jmems (f : nat) (s : gostring) (acc : list (gostring * json)) : option (json * gostring) :=
  match f with
  | O => None
  | S f =>
      match ws s with
      | c :: t =>
          if c =? 34 then
            match jstr t with
            | Some (k, t1) =>
                match ws t1 with
                | c1 :: t2 =>
                    if c1 =? 58 then
                      match jval f t2 with
                      | Some (v, t3) =>
                          match ws t3 with
                          | c3 :: t4 =>
                              if c3 =? 44 then jmems f t4 (acc ++ [(k, v)])
                              else if c3 =? 125 then Some (JObj (acc ++ [(k, v)]), t4) else None
                          | [] => None
                          end
                      | None => None
                      end
                    else None
                | [] => None
                end
            | None => None
            end
          else None
      | [] => None
      end
  end.
(** the value a text stands for, if it is JSON (each value takes a character of its own: the fuel suffices) *)
Definition json_text (s : gostring) : option json :=
  match jval (S (length s)) s with Some (v, r) => match ws r with [] => Some v | _ => None end | None => None end.

(** ** runes *)
Lemma dec1_enc1 r t : is_scalar r = true -> dec1 (enc1 r ++ t) = (r, length (enc1 r)).
Proof.
  intros Hs. unfold enc1. rewrite Hs. unfold enc1_valid, is_scalar in *.
  destruct (N.ltb_spec r 0x80).
  { cbn [app dec1 length]. replace (r <? 0x80) with true by lia. reflexivity. }
  destruct (N.ltb_spec r 0x800).
  { cbn [app dec1 length]. replace (0xC0 + r / 64 <? 0x80) with false by lia.
    replace ((0xC2 <=? 0xC0 + r / 64) && (0xC0 + r / 64 <=? 0xDF)) with true by lia.
    replace (is_cont (0x80 + r mod 64)) with true by (unfold is_cont; lia). f_equal. lia. }
  destruct (N.ltb_spec r 0x10000).
  { cbn [app dec1 length]. replace (0xE0 + r / 4096 <? 0x80) with false by lia.
    replace ((0xC2 <=? 0xE0 + r / 4096) && (0xE0 + r / 4096 <=? 0xDF)) with false by lia.
    replace ((0xE0 <=? 0xE0 + r / 4096) && (0xE0 + r / 4096 <=? 0xEF)) with true by lia.
    replace (ok3 (0xE0 + r / 4096) (0x80 + (r / 64) mod 64)) with true.
    - replace (is_cont (0x80 + r mod 64)) with true by (unfold is_cont; lia). cbn [andb]. f_equal. lia.
    - unfold ok3. destruct (N.eqb_spec (0xE0 + r / 4096) 0xE0); [lia|].
      destruct (N.eqb_spec (0xE0 + r / 4096) 0xED); unfold is_cont; lia. }
  cbn [app dec1 length]. replace (0xF0 + r / 262144 <? 0x80) with false by lia.
  replace ((0xC2 <=? 0xF0 + r / 262144) && (0xF0 + r / 262144 <=? 0xDF)) with false by lia.
  replace ((0xE0 <=? 0xF0 + r / 262144) && (0xF0 + r / 262144 <=? 0xEF)) with false by lia.
  replace ((0xF0 <=? 0xF0 + r / 262144) && (0xF0 + r / 262144 <=? 0xF4)) with true by lia.
  replace (ok4 (0xF0 + r / 262144) (0x80 + (r / 4096) mod 64)) with true.
  - replace (is_cont (0x80 + (r / 64) mod 64)) with true by (unfold is_cont; lia).
    replace (is_cont (0x80 + r mod 64)) with true by (unfold is_cont; lia). cbn [andb]. f_equal. lia.
  - unfold ok4. destruct (N.eqb_spec (0xF0 + r / 262144) 0xF0); [lia|].
    destruct (N.eqb_spec (0xF0 + r / 262144) 0xF4); unfold is_cont; lia.
Qed.
(** a string begins with the encoding of a rune or with a byte that belongs to none *)
Lemma dec1_cases b t : (exists c t', is_scalar c = true /\ b :: t = enc1 c ++ t') \/ dec1 (b :: t) = (RuneError, 1%nat).
Proof.
  cbn [dec1]. destruct (N.ltb_spec b 0x80) as [L|L].
  { left. exists b, t. unfold enc1. assert (S : is_scalar b = true) by (unfold is_scalar; lia). split; auto. rewrite S.
    unfold enc1_valid. replace (b <? 0x80) with true by lia. reflexivity. }
  destruct ((0xC2 <=? b) && (b <=? 0xDF)) eqn:E2.
  { destruct t as [|b1 t1]; auto. destruct (is_cont b1) eqn:C1; auto. left.
    set (c := (b - 0xC0) * 64 + (b1 - 0x80)). unfold is_cont in C1.
    assert (S : is_scalar c = true) by (unfold is_scalar; lia). exists c, t1. split; auto.
    unfold enc1, enc1_valid. rewrite S. replace (c <? 0x80) with false by lia. replace (c <? 0x800) with true by lia.
    cbn [app]. repeat (f_equal; try lia). }
  destruct ((0xE0 <=? b) && (b <=? 0xEF)) eqn:E3.
  { destruct t as [|b1 [|b2 t2]]; auto. destruct (ok3 b b1 && is_cont b2) eqn:C; auto. left.
    apply andb_true_iff in C. destruct C as [C1 C2]. set (c := (b - 0xE0) * 4096 + (b1 - 0x80) * 64 + (b2 - 0x80)).
    assert (R : 0x800 <= c < 0x10000 /\ is_scalar c = true /\ 0x80 <= b1 < 0xC0 /\ 0x80 <= b2 < 0xC0).
    { unfold is_scalar. unfold ok3, is_cont in C1, C2. destruct (N.eqb_spec b 0xE0); [lia|]. destruct (N.eqb_spec b 0xED); lia. }
    destruct R as (R & S & B1 & B2). exists c, t2. split; auto.
    unfold enc1, enc1_valid. rewrite S. replace (c <? 0x80) with false by lia. replace (c <? 0x800) with false by lia.
    replace (c <? 0x10000) with true by lia. clear C1 C2 S. cbn [app]. repeat (f_equal; try lia). }
  destruct ((0xF0 <=? b) && (b <=? 0xF4)) eqn:E4; auto.
  destruct t as [|b1 [|b2 [|b3 t3]]]; auto. destruct (ok4 b b1 && is_cont b2 && is_cont b3) eqn:C; auto. left.
  apply andb_true_iff in C. destruct C as [C C3]. apply andb_true_iff in C. destruct C as [C1 C2].
  set (c := (b - 0xF0) * 262144 + (b1 - 0x80) * 4096 + (b2 - 0x80) * 64 + (b3 - 0x80)).
  assert (R : 0x10000 <= c /\ is_scalar c = true /\ 0x80 <= b1 < 0xC0 /\ 0x80 <= b2 < 0xC0 /\ 0x80 <= b3 < 0xC0).
  { unfold is_scalar. unfold ok4, is_cont in C1, C2, C3. destruct (N.eqb_spec b 0xF0); [lia|]. destruct (N.eqb_spec b 0xF4); lia. }
  destruct R as (R & S & B1 & B2 & B3). exists c, t3. split; auto.
  unfold enc1, enc1_valid. rewrite S. replace (c <? 0x80) with false by lia. replace (c <? 0x800) with false by lia.
  replace (c <? 0x10000) with false by lia. clear C1 C2 C3 S. cbn [app]. repeat (f_equal; try lia).
Qed.
Lemma valid_cons c t : is_scalar c = true -> runes (enc1 c ++ t) = c :: runes t /\ valid_utf8 (enc1 c ++ t) = valid_utf8 t.
Proof.
  intros S. assert (R : runes (enc1 c ++ t) = c :: runes t) by (apply runes_dec, dec_enc1; auto; apply dec_runes).
  split; auto. unfold valid_utf8. rewrite R. cbn [of_runes flat_map]. fold (of_runes (runes t)).
  destruct (str_eqb (of_runes (runes t)) t) eqn:E.
  - apply str_eqb_eq in E. rewrite E. apply str_eqb_refl.
  - destruct (str_eqb (enc1 c ++ of_runes (runes t)) (enc1 c ++ t)) eqn:F; auto. apply str_eqb_eq in F.
    apply app_inv_head in F. rewrite F, str_eqb_refl in E. discriminate.
Qed.
Lemma bad_invalid b t : dec1 (b :: t) = (RuneError, 1%nat) -> valid_utf8 (b :: t) = false.
Proof.
  intros D. destruct (valid_utf8 (b :: t)) eqn:V; auto. apply valid_utf8_eq in V. pose proof (runes_scalar (b :: t)) as S.
  destruct (runes (b :: t)) as [|r rs]; [discriminate|]. cbn [of_runes flat_map] in V. inversion S; subst.
  rewrite <- V, dec1_enc1 in D by assumption. injection D as -> D. vm_compute in D. discriminate.
Qed.

(** ** strings *)
Section Json.
Variable isPrintU : rune -> bool.
Notation esc := (escape_rune isPrintU).
Notation isPrint := (isPrint isPrintU).

(** the runes strconv.Quote writes so that JSON can read them *)
Definition json_rune (c : rune) : bool :=
  isPrint c || (c =? 8) || (c =? 9) || (c =? 10) || (c =? 12) || (c =? 13) || ((0x80 <=? c) && (c <? 0x10000)).
Definition plainc (c : N) : bool := negb (c =? 34) && negb (c =? 92) && (32 <=? c).

Lemma jstr_copy u t : forallb plainc u = true -> jstr (u ++ t) = prepend u (jstr t).
Proof.
  induction u as [|c u IH]; cbn [forallb app]; intros H; [destruct (jstr t) as [[x r]|]; reflexivity|].
  apply andb_true_iff in H. destruct H as [H1 H2]. cbn [jstr]. unfold plainc in H1.
  replace (c =? 34) with false by lia. replace (c =? 92) with false by lia. replace (c <? 32) with false by lia.
  rewrite IH by exact H2. destruct (jstr t) as [[x r]|]; reflexivity.
Qed.
Lemma enc1_plain c : plainc c = true -> forallb plainc (enc1 c) = true.
Proof.
  intros H. unfold enc1. destruct (is_scalar c) eqn:S; [|reflexivity]. unfold enc1_valid, plainc in *. unfold is_scalar in S.
  destruct (N.ltb_spec c 0x80); [cbn [forallb]; lia|]. clear H.
  destruct (N.ltb_spec c 0x800); [cbn [forallb]; lia|]. destruct (N.ltb_spec c 0x10000); cbn [forallb]; lia.
Qed.
Lemma hexval_hex1 n : n < 16 -> hexval (hex1 n) = Some n.
Proof.
  intros H. assert (C : In n (map N.of_nat (seq 0 16))).
  { apply in_map_iff. exists (N.to_nat n). split; [lia|]. apply in_seq. lia. }
  cbn in C. decompose [or] C; subst; try tauto; reflexivity.
Qed.
Lemma jstr_esc c t : is_scalar c = true -> jstr (esc c ++ t) = if json_rune c then prepend (enc1 c) (jstr t) else None.
Proof.
  intros S. unfold escape_rune, json_rune.
  destruct (N.eqb_spec c 34) as [->|N1]; [cbn; destruct (jstr t) as [[x r]|]; reflexivity|].
  destruct (N.eqb_spec c 92) as [->|N2]; [cbn; destruct (jstr t) as [[x r]|]; reflexivity|]. cbn [orb].
  destruct (isPrint c) eqn:P; cbn [orb].
  { apply jstr_copy, enc1_plain. unfold plainc. unfold Text.isPrint in P. destruct (N.ltb_spec c 0x80); lia. }
  destruct (N.eqb_spec c 7) as [->|N3]; [reflexivity|].
  destruct (N.eqb_spec c 8) as [->|N4]; [cbn; destruct (jstr t) as [[x r]|]; reflexivity|].
  destruct (N.eqb_spec c 12) as [->|N5]; [cbn; destruct (jstr t) as [[x r]|]; reflexivity|].
  destruct (N.eqb_spec c 10) as [->|N6]; [cbn; destruct (jstr t) as [[x r]|]; reflexivity|].
  destruct (N.eqb_spec c 13) as [->|N7]; [cbn; destruct (jstr t) as [[x r]|]; reflexivity|].
  destruct (N.eqb_spec c 9) as [->|N8]; [cbn; destruct (jstr t) as [[x r]|]; reflexivity|].
  destruct (N.eqb_spec c 11) as [->|N9]; [reflexivity|]. cbn [orb].
  destruct ((c <? 32) || (c =? 127)) eqn:C1.
  { replace ((0x80 <=? c) && (c <? 0x10000)) with false by lia. reflexivity. }
  assert (U : 0x80 <= c). { unfold Text.isPrint in P. destruct (N.ltb_spec c 0x80); lia. }
  replace (0x80 <=? c) with true by lia. cbn [andb]. destruct (N.ltb_spec c 0x10000) as [L|L]; [|reflexivity].
  cbn [hexn app s2b]. change (s2b "\u") with [92; 117]. cbn [app jstr].
  change (92 =? 34) with false. change (92 =? 92) with true. change (117 =? 117) with true. cbn iota.
  unfold hex4. rewrite !hexval_hex1 by (apply N.mod_lt; lia).
  match goal with |- context [enc1 ?x] => replace x with c at 1 by lia end. reflexivity.
Qed.
Lemma Quote_skip u : forall t, Quote_go isPrintU (length u) (u ++ t) = Quote_go isPrintU 0 t.
Proof. induction u as [|b u IH]; intros t; cbn; auto. Qed.
Lemma Quote_rune c t : is_scalar c = true -> Quote_go isPrintU 0 (enc1 c ++ t) = esc c ++ Quote_go isPrintU 0 t.
Proof.
  intros Sc. pose proof (dec1_enc1 c t Sc) as D. pose proof (enc_len c Sc) as L.
  destruct (enc1 c) as [|b u] eqn:E.
  { cbn in L. destruct (c <? 0x80), (c <? 0x800), (c <? 0x10000); discriminate. }
  cbn [app] in *. cbn [Quote_go]. rewrite D. cbn [length pred]. rewrite Quote_skip.
  destruct ((S (length u) =? 1)%nat && (c =? RuneError)) eqn:B; auto. exfalso.
  apply andb_true_iff in B. destruct B as [B1 B2]. apply N.eqb_eq in B2. subst c. cbn [length] in L. rewrite L in B1. discriminate.
Qed.
Lemma jstr_Quote s : forall t, jstr (Quote_go isPrintU 0 s ++ 34 :: t) =
  if valid_utf8 s && forallb json_rune (runes s) then Some (s, t) else None.
Proof.
  induction s as [s IH] using length_ind. intros t. destruct s as [|b s]; [reflexivity|].
  destruct (dec1_cases b s) as [(c & s' & S & E)|D].
  - rewrite E. destruct (valid_cons c s' S) as [-> ->]. rewrite Quote_rune, <- app_assoc, jstr_esc by exact S.
    cbn [forallb]. rewrite IH.
    + destruct (json_rune c), (valid_utf8 s'), (forallb json_rune (runes s')); reflexivity.
    + rewrite E, app_length, (enc_len c S). destruct (c <? 0x80), (c <? 0x800), (c <? 0x10000); lia.
  - rewrite bad_invalid by exact D. cbn [Quote_go]. rewrite D. reflexivity.
Qed.

(** ** texts *)
Lemma jval_str f t : jval (S f) (34 :: t) = match jstr t with Some (x, r) => Some (JStr x, r) | None => None end.
Proof. reflexivity. Qed.
Lemma jval_obj f t : jval (S f) (123 :: 34 :: t) = jmems f (34 :: t) [].
Proof. reflexivity. Qed.
Lemma jmems_member f k t acc : forallb plainc k = true ->
  jmems (S f) (34 :: k ++ 34 :: 58 :: t) acc =
  match jval f t with
  | Some (v, t3) =>
      match ws t3 with
      | c3 :: t4 => if c3 =? 44 then jmems f t4 (acc ++ [(k, v)])
                    else if c3 =? 125 then Some (JObj (acc ++ [(k, v)]), t4) else None
      | [] => None
      end
  | None => None
  end.
Proof.
  intros H. cbn [jmems ws]. change (is_ws 34) with false. change (34 =? 34) with true. cbn iota.
  rewrite jstr_copy by exact H. change (jstr (34 :: 58 :: t)) with (Some (@nil N, 58 :: t)). cbn [prepend]. rewrite app_nil_r.
  cbn [ws]. change (is_ws 58) with false. change (58 =? 58) with true. reflexivity.
Qed.

(** MarshalJSON of a store is JSON exactly if the prefix is valid UTF-8 without the runes strconv.Quote writes as \a, \v,
    \x or \U, and the delimiter is no quote, backslash or control character; it then stands for prefix, delimiter and mode *)
Theorem marshal_json h :
  json_text (store_MarshalJSON isPrintU h) =
  if valid_utf8 (hprefix h) && forallb (json_rune) (runes (hprefix h)) && plainc (hdelim h)
  then Some (JObj [(s2b "trie", JObj [(s2b "prefix", JStr (hprefix h)); (s2b "delimiter", JStr (enc1 (hdelim h)));
                                      (s2b "recursive-mode", JStr (mode_String (hmode h)))])])
  else None.
Proof.
  assert (X : forall f,
    match jval (8 + f) (store_MarshalJSON isPrintU h) with
    | Some (v, r) => match ws r with [] => Some v | _ => None end | None => None end =
    if valid_utf8 (hprefix h) && forallb (json_rune) (runes (hprefix h)) && plainc (hdelim h)
    then Some (JObj [(s2b "trie", JObj [(s2b "prefix", JStr (hprefix h)); (s2b "delimiter", JStr (enc1 (hdelim h)));
                                        (s2b "recursive-mode", JStr (mode_String (hmode h)))])])
    else None).
  { intros f. unfold store_MarshalJSON, trie_MarshalJSON, Quote.
    set (M := mode_String (hmode h)). set (D := enc1 (hdelim h)). set (Q := Quote_go isPrintU 0 (hprefix h)).
    set (T3 := s2b """}" ++ s2b "}"). set (T2 := s2b """, ""recursive-mode"":""" ++ M ++ T3).
    set (T1 := s2b ",""delimiter"":""" ++ D ++ T2).
    replace (_ ++ (_ ++ _) ++ _) with (123 :: 34 :: s2b "trie" ++ 34 :: 58 :: 123 :: 34 :: s2b "prefix" ++ 34 :: 58 :: 34 :: Q ++ 34 :: T1).
    2:{ unfold T1, T2, T3. rewrite <- !app_assoc. reflexivity. }
    cbn [Nat.add]. rewrite jval_obj, jmems_member by reflexivity. rewrite jval_obj, jmems_member by reflexivity.
    rewrite jval_str. unfold Q. rewrite jstr_Quote.
    destruct (valid_utf8 (hprefix h) && forallb json_rune (runes (hprefix h))); [|reflexivity]. cbn [andb].
    unfold T1 at 1. change (s2b ",""delimiter"":""") with (44 :: 34 :: s2b "delimiter" ++ 34 :: 58 :: [34]).
    cbn [app]. rewrite <- app_assoc. cbn [ws app]. change (is_ws 44) with false. change (44 =? 44) with true. cbn iota.
    rewrite jmems_member by reflexivity. rewrite jval_str.
    destruct (plainc (hdelim h)) eqn:P.
    - unfold D at 1. rewrite jstr_copy by (now apply enc1_plain).
      assert (J : jstr T2 = Some ([], 44 :: 32 :: 34 :: s2b "recursive-mode" ++ 34 :: 58 :: 34 :: M ++ T3)) by reflexivity.
      rewrite J. cbn [prepend]. rewrite app_nil_r. cbn [ws]. change (is_ws 44) with false. change (44 =? 44) with true. cbn iota.
      change (jmems (S (S (S f))) (32 :: ?t)) with (jmems (S (S (S f))) t).
      rewrite jmems_member by reflexivity. rewrite jval_str, jstr_copy by (unfold M; destruct (hmode h); reflexivity).
      change (jstr T3) with (Some (@nil N, s2b "}}")). cbn [prepend]. rewrite app_nil_r. reflexivity.
    - unfold plainc in P. assert (ED : D = [hdelim h]).
      { unfold D, enc1, enc1_valid. replace (is_scalar (hdelim h)) with true by (unfold is_scalar; lia).
        replace (hdelim h <? 0x80) with true by lia. reflexivity. }
      change (44 =? 44) with true. cbn iota. rewrite ED. cbn [app jstr].
      destruct (N.eqb_spec (hdelim h) 34); [reflexivity|]. destruct (N.eqb_spec (hdelim h) 92); [reflexivity|].
      replace (hdelim h <? 32) with true by lia. reflexivity. }
  unfold json_text. specialize (X (length (store_MarshalJSON isPrintU h) - 7)%nat).
  replace (8 + (length (store_MarshalJSON isPrintU h) - 7))%nat with (S (length (store_MarshalJSON isPrintU h))) in X; [exact X|].
  assert (L : (7 <= length (store_MarshalJSON isPrintU h))%nat) by (cbn; lia). lia.
Qed.
(** MarshalJSON of a trie never is *)
Theorem trie_never_json h : json_text (trie_MarshalJSON isPrintU h) = None.
Proof. reflexivity. Qed.
(** ASCII without control characters always is *)
Theorem ascii_json h : Forall (fun c => 32 <= c < 127) (hprefix h) -> plainc (hdelim h) = true ->
  json_text (store_MarshalJSON isPrintU h) <> None.
Proof.
  intros F P. rewrite marshal_json, P. assert (A : ascii (hprefix h) = true).
  { apply forallb_forall. intros c Hc. rewrite Forall_forall in F. specialize (F c Hc). lia. }
  rewrite ascii_valid, ascii_runes by exact A. cbn [andb].
  replace (forallb json_rune (hprefix h)) with true; [discriminate|]. symmetry. apply forallb_forall. intros c Hc.
  rewrite Forall_forall in F. specialize (F c Hc). unfold json_rune, Text.isPrint. replace (c <? 0x80) with true by lia. lia.
Qed.
(** of the other ASCII characters only \b, \t, \n, \f and \r may be in the prefix *)
Theorem ascii_json_iff h : Forall (fun c => c < 128) (hprefix h) -> plainc (hdelim h) = true ->
  (json_text (store_MarshalJSON isPrintU h) <> None <->
   Forall (fun c => 32 <= c < 127 \/ In c [8; 9; 10; 12; 13]) (hprefix h)).
Proof.
  intros F P. rewrite marshal_json, P. assert (A : ascii (hprefix h) = true).
  { apply forallb_forall. intros c Hc. rewrite Forall_forall in F. specialize (F c Hc). lia. }
  rewrite ascii_valid, ascii_runes by exact A. cbn [andb]. rewrite andb_true_r.
  assert (E : forallb json_rune (hprefix h) = true <-> Forall (fun c => 32 <= c < 127 \/ In c [8; 9; 10; 12; 13]) (hprefix h)).
  { rewrite forallb_forall, Forall_forall. rewrite Forall_forall in F.
    split; intros H c Hc; specialize (H c Hc); specialize (F c Hc); unfold json_rune, Text.isPrint in *;
      replace (c <? 0x80) with true in * by lia; cbn [In] in *; lia. }
  rewrite <- E. destruct (forallb json_rune (hprefix h)); split; intros H; congruence.
Qed.
End Json.
