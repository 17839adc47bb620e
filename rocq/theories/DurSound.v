(** What ParseDuration accepts. *)
From Coq Require Import String.
From Coq Require Import List NArith ZArith Bool Arith Lia.
From Verif Require Import GoStr Dur DurFloat DurSpec DurProofs.
Import ListNotations.
Open Scope N_scope.
Open Scope list_scope.

Local Opaque N.mul N.div N.modulo N.add N.sub.
Local Opaque two63 two64.

Lemma is_digit_spec c : is_digit c = true -> digit c.
Proof. unfold is_digit, digit. rewrite andb_true_iff, !N.leb_le. auto. Qed.

Lemma leadingInt_sound s : forall x v r, leadingInt s x = Some (v, r) ->
  exists ds, s = ds ++ r /\ Forall digit ds.
Proof.
  induction s as [|c s IH]; intros x v r; cbn [leadingInt].
  - intros E. inversion E. exists []. auto.
  - destruct (is_digit c) eqn:D.
    + destruct (_ <? x); [discriminate|]. destruct (two63 <? _); [discriminate|]. intros E.
      destruct (IH _ _ _ E) as (ds & -> & F). exists (c :: ds). split; auto. constructor; auto using is_digit_spec.
    + intros E. inversion E. exists []. auto.
Qed.
Lemma leadingFraction_sound s : forall x sc o, exists ds f sc' r,
  leadingFraction s x sc o = (f, sc', r) /\ s = ds ++ r /\ Forall digit ds.
Proof.
  induction s as [|c s IH]; intros x sc o; cbn [leadingFraction].
  - exists [], x, sc, []. auto.
  - destruct (is_digit c) eqn:D; [|exists [], x, sc, (c :: s); auto].
    assert (K : forall x sc o, exists ds f sc' r,
       leadingFraction s x sc o = (f, sc', r) /\ c :: s = ds ++ r /\ Forall digit ds).
    { intros x0 sc0 o0. destruct (IH x0 sc0 o0) as (ds & f & sc' & r & E & Es & F).
      exists (c :: ds), f, sc', r. split; [assumption|]. split; [now rewrite Es|].
      constructor; auto using is_digit_spec. }
    destruct o; [apply K|]. destruct (_ <? x); [apply K|]. cbv zeta. destruct (two63 <? _); apply K.
Qed.
Lemma span_unit_sound s : forall u r, span_unit s = (u, r) -> s = u ++ r.
Proof.
  induction s as [|c s IH]; intros u r; cbn [span_unit]; [intros E; now inversion E|].
  destruct (_ || _); [intros E; now inversion E|].
  destruct (span_unit s) as [u' r']. intros E. inversion E. subst. cbn. f_equal. now apply IH.
Qed.
Lemma unitMap_sound u n : unitMap u = Some n -> In (u, n) units.
Proof.
  unfold unitMap, units.
  repeat match goal with
  | |- context [if str_eqb u ?x then _ else _] =>
      let E := fresh "E" in destruct (str_eqb u x) eqn:E; [apply str_eqb_eq in E; subst u; intros X; inversion X; vm_compute; auto 12|]
  end; discriminate.
Qed.

Local Ltac len_neq H := 
  apply negb_true_iff in H; apply Nat.eqb_neq in H.

Lemma parseLoop_sound fuel : forall s d, (length s <= fuel)%nat ->
  exists o, parseLoop fuel s d = Ok o /\
  (o <> None -> exists ts, s = dstr ts /\ Forall good_term ts).
Proof.
  induction fuel as [|fuel IH]; intros s d Hl.
  - destruct s; [|cbn in Hl; lia]. exists (Some d). split; [reflexivity|]. intros _. exists []. auto.
  - destruct s as [|c0 s0]; [exists (Some d); split; [reflexivity|]; intros _; exists []; auto|].
    cbn [parseLoop]. set (s := c0 :: s0) in *.
    destruct (negb (_ || _)); [exists None; split; [reflexivity|congruence]|].
    destruct (leadingInt s 0) as [[v s1]|] eqn:EI; [|exists None; split; [reflexivity|congruence]].
    destruct (leadingInt_sound _ _ _ _ EI) as (ds & Es & Fd).
    cbv zeta.
    (* the fraction *)
    assert (K : exists fr f sc s2 post,
       (match s1 with
        | c1 :: t1 =>
            if c1 =? 46 then
              let '(f, scale, s2) := leadingFraction t1 0 (f64_of 1) false in
              (f, scale, s2, negb (length t1 =? length s2)%nat)
            else (0, f64_of 1, s1, false)
        | [] => (0, f64_of 1, s1, false)
        end : N * f64 * gostring * bool) = (f, sc, s2, post) /\
       s1 = (match fr with Some x => 46 :: x | None => [] end) ++ s2 /\
       Forall digit (match fr with Some x => x | None => [] end) /\
       (post = true -> match fr with Some x => x | None => [] end <> [])).
    { destruct s1 as [|c1 t1].
      - exists None, 0, (f64_of 1), [], false. repeat split; auto; discriminate.
      - destruct (N.eqb_spec c1 46) as [->|Hc].
        + destruct (leadingFraction_sound t1 0 (f64_of 1) false) as (fs & f & sc & r & E & Et & Ff).
          rewrite E. exists (Some fs), f, sc, r, (negb (length t1 =? length r)%nat).
          split; [reflexivity|]. split; [now rewrite Et|]. split; [assumption|].
          intros X. len_neq X. intros ->. subst t1. now apply X.
        + exists None, 0, (f64_of 1), (c1 :: t1), false. repeat split; auto; discriminate. }
    destruct K as (fr & f & sc & s2 & post & E & E1 & Ff & Hpost). 
    rewrite E.
    match goal with |- context [if ?c then Ok None else _] => destruct c eqn:EP end; [exists None; split; [reflexivity|congruence]|].
    destruct (span_unit s2) as [u s3] eqn:EU. pose proof (span_unit_sound _ _ _ EU) as E2.
    destruct (is_nil u) eqn:EN; [exists None; split; [reflexivity|congruence]|].
    destruct (unitMap u) as [unit|] eqn:EM; [|exists None; split; [reflexivity|congruence]].
    match goal with |- context [if ?c then Ok None else _] => destruct c end; [exists None; split; [reflexivity|congruence]|].
    match goal with |- context [if ?c then Ok None else _] => destruct c end; [exists None; split; [reflexivity|congruence]|].
    match goal with |- context [if ?c then Ok None else _] => destruct c end; [exists None; split; [reflexivity|congruence]|].
    set (t := Term ds fr u unit).
    assert (G : good_term t).
    { unfold good_term, t, frac_digits. cbn [t_int t_frac t_unit t_ns].
      split; [assumption|]. split; [assumption|]. split; [|now apply unitMap_sound].
      rewrite negb_involutive, andb_false_iff in EP. destruct EP as [EP|EP].
      - left. apply Nat.eqb_neq in EP. intros ->. apply EP. now rewrite Es.
      - right. apply Hpost. now apply negb_false_iff. }
    assert (Hs : s = tstr t ++ s3).
    { unfold tstr, t. cbn [t_int t_frac t_unit]. rewrite Es, E1, E2, <- !app_assoc. reflexivity. }
    destruct (IH s3 (u64 (d + (if 0 <? f then u64 (u64 (v * unit) + u64_of (fmul (f64_of f) (fdiv (f64_of unit) sc))) else u64 (v * unit))))) as (o & Eo & Ho).
    { assert (length s = length (tstr t) + length s3)%nat by now rewrite Hs, app_length.
      pose proof (proj1 (tstr_head t G)). destruct (tstr t); [congruence|]. cbn [length] in *. lia. }
    exists o. split; [exact Eo|]. intros X. destruct (Ho X) as (ts & -> & Gs). exists (t :: ts).
    split; [exact Hs|]. now constructor.
Qed.

(** parsing always returns, and what it accepts is "0" or a sequence of terms after an optional sign *)
Theorem parse_sound s : exists o, ParseDuration s = Ok o /\
  (o <> None -> exists sg neg, sign_of sg neg /\
    ((s = sg ++ [48] /\ o = Some 0%Z) \/
     exists ts, s = sg ++ dstr ts /\ ts <> [] /\ Forall good_term ts)).
Proof.
  unfold ParseDuration.
  assert (K : exists sg neg s1, strip_sign s = (neg, s1) /\ sign_of sg neg /\ s = sg ++ s1).
  { unfold strip_sign, sign_of. destruct s as [|c t]; [exists [], false, []; auto|].
    destruct (N.eqb_spec c 45) as [->|]; [exists [45], true, t; auto 10|].
    destruct (N.eqb_spec c 43) as [->|]; [exists [43], false, t; auto 10|]. exists [], false, (c :: t). auto 10. }
  destruct K as (sg & neg & s1 & -> & Sg & ->).
  destruct (str_eqb s1 (s2b "0"%string)) eqn:E0.
  { apply str_eqb_eq in E0. subst s1. exists (Some 0%Z). split; [reflexivity|]. intros _. exists sg, neg. auto. }
  destruct (is_nil s1) eqn:E1; [exists None; split; [reflexivity|congruence]|].
  destruct (parseLoop_sound (length s1) s1 0 ltac:(lia)) as (o & Eo & Ho). rewrite Eo. cbn [bind].
  eexists. split; [reflexivity|]. intros X. exists sg, neg. split; [assumption|]. right.
  destruct o as [d|]; [|congruence]. destruct (Ho ltac:(discriminate)) as (ts & -> & G). exists ts. split; [reflexivity|].
  split; [|assumption]. intros ->. discriminate E1.
Qed.

(** ** MustParseDuration *)
Theorem must_sound s : exists d, MustParseDuration s = Ok d /\
  (d <> 0%Z -> exists sg neg ts, sign_of sg neg /\ s = sg ++ dstr ts /\ ts <> [] /\ Forall good_term ts).
Proof.
  destruct (parse_sound s) as (o & E & H). unfold MustParseDuration. rewrite E. cbn [bind].
  eexists. split; [reflexivity|]. destruct o as [d|]; [|congruence]. intros Hd.
  destruct (H ltac:(discriminate)) as (sg & neg & Hs & [[_ X]|(ts & Es & Hn & Hg)]); [congruence|].
  exists sg, neg, ts. auto.
Qed.
Theorem must_terms sg neg ts :
  sign_of sg neg -> ts <> [] -> Forall good_term ts -> Forall exact_term ts -> nowrap ts ->
  MustParseDuration (sg ++ dstr ts) =
    Ok (if neg then if dsum ts <=? two63 then (- Z.of_N (dsum ts))%Z else 0%Z
        else if dsum ts <? two63 then Z.of_N (dsum ts) else 0%Z).
Proof.
  intros H1 H2 H3 H4 H5. unfold MustParseDuration. rewrite (parse_terms sg neg ts H1 H2 H3 H4 H5). cbn [bind].
  destruct neg; [destruct (dsum ts <=? two63)|destruct (dsum ts <? two63)]; reflexivity.
Qed.
