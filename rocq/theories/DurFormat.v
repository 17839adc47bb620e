(** Formatting a duration and reading it back. *)
From Coq Require Import String.
From Coq Require Import List NArith ZArith Bool Arith Lia.
From Verif Require Import GoStr Dur DurFloat DurSpec DurProofs.
Import ListNotations.
Open Scope N_scope.
Open Scope list_scope.

Local Opaque N.mul N.div N.modulo N.add N.sub.
Local Opaque two63 two64.

(** [lia] treats [mod] and [/] as unknown integers; tell it they are not negative *)
Ltac nlia :=
  repeat match goal with
  | H : context [N.modulo _ _] |- _ => revert H
  | H : context [N.div _ _] |- _ => revert H
  end;
  repeat match goal with
  | |- context [N.modulo ?a ?b] => generalize (N.modulo a b)
  | |- context [N.div ?a ?b] => generalize (N.div a b)
  end; intros; lia.

(** ** writing into the buffer *)
Definition pushes (l : list N) (b : gostring) : res gostring :=
  if (length l + length b <=? bufsize)%nat then Ok (l ++ b) else Panic.
Lemma put_pushes c b : put c b = pushes [c] b.
Proof.
  unfold put, pushes. cbn [length]. destruct (Nat.ltb_spec (length b) bufsize), (Nat.leb_spec (1 + length b) bufsize); auto; lia.
Qed.
Lemma pushes_app l1 l2 b : (do b1 <- pushes l1 b; pushes l2 b1) = pushes (l2 ++ l1) b.
Proof.
  unfold pushes at 1 3. rewrite app_length. destruct (Nat.leb_spec (length l1 + length b) bufsize) as [L|L]; cbn [bind].
  - unfold pushes. rewrite app_length, <- app_assoc. now rewrite Nat.add_assoc.
  - destruct (Nat.leb_spec (length l2 + length l1 + length b) bufsize); [lia|reflexivity].
Qed.
Lemma bind_assoc {A B C} (r : res A) (f : A -> res B) (g : B -> res C) :
  (do y <- (do x <- r; f x); g y) = (do x <- r; do y <- f x; g y).
Proof. now destruct r. Qed.
Lemma bind_ext {A B} (r : res A) (f g : A -> res B) : (forall a, r = Ok a -> f a = g a) -> bind r f = bind r g.
Proof. intros H. destruct r; cbn; auto. Qed.
Lemma pushes_len l b b1 : pushes l b = Ok b1 -> (length b1 <= bufsize)%nat.
Proof.
  unfold pushes. destruct (Nat.leb_spec (length l + length b) bufsize); [|discriminate]. intros X. inversion X.
  now rewrite app_length.
Qed.
(** continue with something that is also a push *)
Lemma bind_pushes l1 l2 b k : (forall b1, (length b1 <= bufsize)%nat -> k b1 = pushes l2 b1) ->
  (do b1 <- pushes l1 b; k b1) = pushes (l2 ++ l1) b.
Proof. intros H. rewrite <- pushes_app. apply bind_ext. intros b1 E. apply H. eapply pushes_len; eauto. Qed.
Lemma pushes_nil b : (length b <= bufsize)%nat -> pushes [] b = Ok b.
Proof. intros H. unfold pushes. cbn. destruct (Nat.leb_spec (length b) bufsize); [reflexivity|lia]. Qed.
Lemma puts_pushes l : forall b, (length b <= bufsize)%nat -> puts l b = pushes (rev l) b.
Proof.
  induction l as [|c l IH]; intros b H; cbn [puts rev]; [now rewrite pushes_nil|].
  rewrite put_pushes. apply bind_pushes. auto.
Qed.

(** ** decimal numbers *)
Fixpoint dec (fuel : nat) (v : N) : list N :=
  match fuel with
  | O => []
  | S f => if v =? 0 then [] else dec f (v / 10) ++ [48 + v mod 10]
  end.
Definition num (v : N) : list N := if v =? 0 then [48] else dec 20 v.

Lemma pow10_S k : 10 ^ N.of_nat (S k) = 10 * 10 ^ N.of_nat k.
Proof. now rewrite Nat2N.inj_succ, N.pow_succ_r'. Qed.
Lemma div10_lt v k : v < 10 ^ N.of_nat (S k) -> v / 10 < 10 ^ N.of_nat k.
Proof. intros H. rewrite pow10_S in H. apply N.div_lt_upper_bound; lia. Qed.
Lemma dm10 v : v = 10 * (v / 10) + v mod 10.
Proof. apply N.div_mod. lia. Qed.
Lemma mod10 v : v mod 10 < 10.
Proof. apply N.mod_lt. lia. Qed.

Lemma fmtDigits_spec fuel : forall v b, (length b <= bufsize)%nat -> v < 10 ^ N.of_nat fuel ->
  fmtDigits fuel b v = pushes (dec fuel v) b.
Proof.
  induction fuel as [|f IH]; intros v b Hb Hv; cbn [fmtDigits dec].
  - cbn in Hv. replace v with 0 by lia. now rewrite pushes_nil.
  - destruct (N.eqb_spec v 0); [now rewrite pushes_nil|]. rewrite put_pushes. apply bind_pushes.
    intros b1 Hb1. apply IH; auto using div10_lt.
Qed.
Lemma fmtInt_spec v b : (length b <= bufsize)%nat -> v < two64 -> fmtInt b v = pushes (num v) b.
Proof.
  intros Hb Hv. unfold fmtInt, num. destruct (v =? 0); [apply put_pushes|]. apply fmtDigits_spec; auto.
  rewrite two64_v in Hv. change (10 ^ N.of_nat 20) with 100000000000000000000. lia.
Qed.
Lemma dec_digits fuel : forall v, Forall digit (dec fuel v).
Proof.
  induction fuel as [|f IH]; intros v; cbn [dec]; [constructor|]. destruct (v =? 0); [constructor|].
  apply Forall_app. split; auto. constructor; [|constructor]. pose proof (mod10 v) as M. revert M. generalize (v mod 10). unfold digit. intros. lia.
Qed.
Lemma dec_val fuel : forall v, v < 10 ^ N.of_nat fuel -> val (dec fuel v) = v.
Proof.
  induction fuel as [|f IH]; intros v Hv; cbn [dec].
  - cbn in Hv. cbn. lia.
  - destruct (N.eqb_spec v 0); [subst; reflexivity|]. rewrite val_fold, vfold_app, <- val_fold, IH by now apply div10_lt.
    cbn [fold_left]. unfold vstep. pose proof (dm10 v) as M. revert M. generalize (v mod 10), (v / 10). intros. lia.
Qed.
Lemma dec_len fuel : forall v k, v < 10 ^ N.of_nat k -> (length (dec fuel v) <= k)%nat.
Proof.
  induction fuel as [|f IH]; intros v k Hv; cbn [dec]; [cbn; lia|].
  destruct (N.eqb_spec v 0); [cbn; lia|]. rewrite app_length. cbn [length].
  destruct k as [|k]; [cbn in Hv; lia|]. apply div10_lt in Hv. specialize (IH _ _ Hv). lia.
Qed.
Lemma dec_nonempty f v : v <> 0 -> dec (S f) v <> [].
Proof. intros H. cbn. destruct (N.eqb_spec v 0); [congruence|]. intros X. destruct (app_cons_not_nil _ _ _ (eq_sym X)). Qed.

Lemma num_digits v : Forall digit (num v).
Proof.
  unfold num. destruct (v =? 0); [|apply dec_digits]. constructor; [unfold digit; lia|constructor].
Qed.
Lemma num_val v : v < two64 -> val (num v) = v.
Proof.
  intros H. unfold num. destruct (N.eqb_spec v 0); [subst; reflexivity|]. apply dec_val.
  rewrite two64_v in H. change (10 ^ N.of_nat 20) with 100000000000000000000. lia.
Qed.
Lemma num_nonempty v : num v <> [].
Proof. unfold num. destruct (N.eqb_spec v 0); [discriminate|now apply dec_nonempty]. Qed.
Lemma num_len v k : v < 10 ^ N.of_nat k -> (1 <= k)%nat -> (length (num v) <= k)%nat.
Proof. intros H Hk. unfold num. destruct (v =? 0); [cbn; lia|now apply dec_len]. Qed.

(** ** fractions *)
Fixpoint ftext (prec : nat) (printed : bool) (v : N) : list N :=
  match prec with
  | O => []
  | S p => let pr := printed || negb (v mod 10 =? 0) in
           ftext p pr (v / 10) ++ (if pr then [48 + v mod 10] else [])
  end.
Lemma mod_pow_S v p : v mod 10 ^ N.of_nat (S p) = 10 * ((v / 10) mod 10 ^ N.of_nat p) + v mod 10.
Proof. rewrite pow10_S. rewrite N.mod_mul_r by (try lia; apply N.pow_nonzero; lia). lia. Qed.
Lemma fmtFrac_go_spec prec : forall printed b v, (length b <= bufsize)%nat ->
  fmtFrac_go prec printed b v =
    (do b1 <- pushes (ftext prec printed v) b;
     Ok (printed || negb (v mod 10 ^ N.of_nat prec =? 0), b1, v / 10 ^ N.of_nat prec)).
Proof.
  induction prec as [|p IH]; intros printed b v Hb; cbn [fmtFrac_go ftext].
  - rewrite pushes_nil by assumption. cbn [bind]. change (10 ^ N.of_nat 0) with 1.
    rewrite N.mod_1_r, N.div_1_r. cbn. now rewrite orb_false_r.
  - cbv zeta. set (pr := printed || negb (v mod 10 =? 0)).
    assert (E : (if pr return res gostring then put (48 + v mod 10) b else @Ok gostring b) = pushes (if pr then [48 + v mod 10] else []) b).
    { destruct pr; [apply put_pushes|now rewrite pushes_nil]. }
    rewrite E, <- pushes_app, bind_assoc. apply bind_ext. intros b1 E1.
    rewrite IH by (eapply pushes_len; eauto). apply bind_ext. intros b2 _. f_equal. f_equal; [f_equal|].
    + unfold pr. rewrite <- orb_assoc. f_equal. rewrite mod_pow_S.
      destruct (N.eqb_spec (v mod 10) 0) as [Z|Z], (N.eqb_spec ((v / 10) mod 10 ^ N.of_nat p) 0) as [Y|Y];
        cbn [negb orb]; revert Y Z; generalize ((v / 10) mod 10 ^ N.of_nat p), (v mod 10); intros x y Y Z; destruct (N.eqb_spec (10 * x + y) 0); cbn; auto; lia.
    + rewrite pow10_S, N.div_div; auto; lia.
Qed.
Definition fpart (prec : nat) (v : N) : list N :=
  if v mod 10 ^ N.of_nat prec =? 0 then [] else 46 :: ftext prec false v.
Lemma ftext_zero p : forall v, v mod 10 ^ N.of_nat p = 0 -> ftext p false v = [].
Proof.
  induction p as [|p IH]; intros v H; cbn [ftext]; auto. rewrite mod_pow_S in H.
  assert (E : v mod 10 = 0 /\ (v / 10) mod 10 ^ N.of_nat p = 0) by nlia. destruct E as [E1 E2].
  rewrite E1. cbn [orb negb N.eqb]. rewrite IH by exact E2. reflexivity.
Qed.
Lemma fmtFrac_spec b v prec : (length b <= bufsize)%nat ->
  fmtFrac b v prec = (do b1 <- pushes (fpart prec v) b; Ok (b1, v / 10 ^ N.of_nat prec)).
Proof.
  intros Hb. unfold fmtFrac, fpart. rewrite fmtFrac_go_spec, bind_assoc by assumption. cbn [orb].
  destruct (N.eqb_spec (v mod 10 ^ N.of_nat prec) 0) as [E|E]; cbn [negb].
  - rewrite ftext_zero by assumption. rewrite pushes_nil by assumption. reflexivity.
  - change (46 :: ftext prec false v) with ([46] ++ ftext prec false v). rewrite <- pushes_app, bind_assoc.
    apply bind_ext. intros b1 _. cbn [bind]. now rewrite put_pushes.
Qed.
Lemma ftext_digits p : forall pr v, Forall digit (ftext p pr v).
Proof.
  induction p as [|p IH]; intros pr v; cbn [ftext]; [constructor|]. apply Forall_app. split; auto.
  destruct (pr || _); constructor; [|constructor]. pose proof (mod10 v) as M. revert M. generalize (v mod 10). unfold digit. intros. lia.
Qed.
Lemma ftext_true p : forall v, length (ftext p true v) = p /\ val (ftext p true v) = v mod 10 ^ N.of_nat p.
Proof.
  induction p as [|p IH]; intros v; cbn [ftext].
  - change (10 ^ N.of_nat 0) with 1. rewrite N.mod_1_r. split; reflexivity.
  - cbn [orb]. destruct (IH (v / 10)) as [IL IV]. rewrite app_length, IL. cbn [length]. split; [lia|].
    rewrite val_fold, vfold_app, <- val_fold, IV, mod_pow_S. cbn [fold_left]. unfold vstep. nlia.
Qed.
Lemma ftext_false p : forall v, (length (ftext p false v) <= p)%nat /\
  val (ftext p false v) * 10 ^ N.of_nat (p - length (ftext p false v)) = v mod 10 ^ N.of_nat p.
Proof.
  induction p as [|p IH]; intros v; cbn [ftext].
  - change (10 ^ N.of_nat 0) with 1. rewrite N.mod_1_r. split; reflexivity.
  - cbn [orb]. destruct (N.eqb_spec (v mod 10) 0) as [E|E]; cbn [negb].
    + rewrite app_nil_r. destruct (IH (v / 10)) as [IL IV]. split; [lia|].
      rewrite mod_pow_S, E, N.add_0_r, <- IV. rewrite Nat.sub_succ_l by lia. rewrite pow10_S. lia.
    + destruct (ftext_true p (v / 10)) as [IL IV]. rewrite app_length, IL. cbn [length]. split; [lia|].
      rewrite Nat.add_1_r, Nat.sub_diag. change (10 ^ N.of_nat 0) with 1. rewrite N.mul_1_r.
      rewrite val_fold, vfold_app, <- val_fold, IV, mod_pow_S. cbn [fold_left]. unfold vstep. nlia.
Qed.

(** ** the terms that are written *)
Definition iterm (v : N) (u : gostring) (n : N) : term := Term (num v) None u n.
Definition ipart (v : N) (u : gostring) (n : N) : list term := if 0 <? v then [iterm v u n] else [].
Definition fterm (prec : nat) (v : N) (u : gostring) (n : N) : term :=
  Term (num (v / 10 ^ N.of_nat prec)) (if v mod 10 ^ N.of_nat prec =? 0 then None else Some (ftext prec false v)) u n.
Definition uU : gostring := [194; 181; 115].
Definition s_ (s : string) : gostring := s2b s.

Definition small_terms (u : N) : list term :=
  if u <? Microsecond then if u =? 0 then [iterm 0 (s_ "s") Second] else [fterm 0 u (s_ "ns") 1]
  else if u <? Millisecond then [fterm 3 u uU Microsecond]
  else [fterm 6 u (s_ "ms") Millisecond].
Definition frac_terms (u : N) : list term :=
  let u1 := u / Second in let u2 := u1 / 60 in let u3 := u2 / 60 in
  ipart u3 (s_ "h") Hour ++ (if 0 <? u2 then [iterm (u2 mod 60) (s_ "m") Minute] else []) ++
  [Term (num (u1 mod 60)) (t_frac (fterm 9 u (s_ "s") Second)) (s_ "s") Second].
Definition plain_terms (u : N) : list term :=
  ipart (u / Day) (s_ "d") Day ++ ipart (u mod Day / Hour) (s_ "h") Hour ++
  ipart (u mod Hour / Minute) (s_ "m") Minute ++ ipart (u mod Minute / Second) (s_ "s") Second ++
  ipart (u mod Second / Millisecond) (s_ "ms") Millisecond ++
  ipart (u mod Millisecond / Microsecond) uU Microsecond ++ ipart (u mod Microsecond) (s_ "ns") 1.
Definition dterms (u : N) (frac : bool) : list term :=
  if u <? Second then small_terms u else if frac then frac_terms u else plain_terms u.
Definition dtext (d : Z) (frac : bool) : gostring :=
  (if (d <? 0)%Z then [45] else []) ++ dstr (dterms (Z.abs_N d) frac).

Lemma absu_abs d : dur_range d -> absu d = Z.abs_N d /\ Z.abs_N d <= two63.
Proof.
  unfold dur_range, absu. intros H. change (2 ^ 63)%Z with 9223372036854775808%Z in H.
  rewrite two63_v. split; [|lia].
  destruct (Z.ltb_spec d 0).
  - replace (d mod Z.of_N two64)%Z with (d + Z.of_N two64)%Z.
    + rewrite u64_id; rewrite two64_v in *; lia.
    + symmetry. rewrite <- (Z.mod_add d 1) by (rewrite two64_v; lia). rewrite Z.mod_small; rewrite two64_v; lia.
  - rewrite Z.mod_small by (rewrite two64_v; lia). lia.
Qed.

Lemma part_spec v rl u n b : rev rl = u -> v < two64 -> (length b <= bufsize)%nat ->
  part v rl b = pushes (dstr (ipart v u n)) b.
Proof.
  intros <- Hv Hb. unfold part, ipart. destruct (0 <? v); [|cbn; now rewrite pushes_nil].
  rewrite puts_pushes by assumption. unfold dstr, tstr, iterm. cbn [map concat t_int t_frac t_unit app]. rewrite app_nil_r.
  apply bind_pushes. intros b1 Hb1. now apply fmtInt_spec.
Qed.
Lemma cut_spec u n : 0 < n -> cut u n = (u / n, u mod n).
Proof. intros H. unfold cut. destruct (N.leb_spec n u); auto. now rewrite N.div_small, N.mod_small by lia. Qed.
Lemma bind_fmtFrac {A} b v prec (k : gostring -> N -> res A) : (length b <= bufsize)%nat ->
  (do (b2, u2) <- fmtFrac b v prec; k b2 u2) = (do b2 <- pushes (fpart prec v) b; k b2 (v / 10 ^ N.of_nat prec)).
Proof. intros Hb. rewrite fmtFrac_spec by assumption. now destruct (pushes _ _). Qed.

Lemma tstr_f prec v u n :
  tstr (fterm prec v u n) = num (v / 10 ^ N.of_nat prec) ++ fpart prec v ++ u.
Proof. unfold tstr, fterm, fpart. cbn [t_int t_frac t_unit]. now destruct (_ =? 0). Qed.

Lemma small_text u : u < Second -> fmtSeconds [] u = pushes (dstr (small_terms u)) [].
Proof.
  intros Hu. assert (Hs : u < two64) by (rewrite two64_v; unfold Second in Hu; lia).
  unfold fmtSeconds, fmtMsec, small_terms. rewrite put_pushes.
  assert (Dv : forall k, u / 10 ^ N.of_nat k < two64).
  { intros k. eapply N.le_lt_trans; [|exact Hs]. apply N.div_le_upper_bound; [apply N.pow_nonzero; lia|].
    assert (10 ^ N.of_nat k <> 0) by (apply N.pow_nonzero; lia). nia. }
  destruct (N.eqb_spec u 0) as [->|H0].
  - change (0 <? Microsecond) with true. cbv iota. vm_compute. reflexivity.
  - unfold dstr. 
    destruct (u <? Microsecond) eqn:E1; [|destruct (u <? Millisecond) eqn:E2].
    + cbn [map concat]. rewrite app_nil_r, tstr_f, app_assoc.
      change (s_ "ns") with ([110] ++ [115]). rewrite app_assoc. apply bind_pushes. intros b1 Hb1.
      rewrite !bind_assoc, put_pushes. apply bind_pushes. intros b2 Hb2. cbn [bind]. rewrite bind_fmtFrac by assumption.
      apply bind_pushes. intros b3 Hb3. apply fmtInt_spec; auto.
    + cbn [map concat]. rewrite app_nil_r, tstr_f, app_assoc.
      change uU with ([194] ++ [181] ++ [115]). rewrite !app_assoc. apply bind_pushes. intros b1 Hb1.
      rewrite !bind_assoc, put_pushes. apply bind_pushes. intros b2 Hb2.
      rewrite !bind_assoc, put_pushes. apply bind_pushes. intros b2' Hb2'. cbn [bind]. rewrite bind_fmtFrac by assumption.
      apply bind_pushes. intros b3 Hb3. apply fmtInt_spec; auto.
    + cbn [map concat]. rewrite app_nil_r, tstr_f, app_assoc.
      change (s_ "ms") with ([109] ++ [115]). rewrite app_assoc. apply bind_pushes. intros b1 Hb1.
      rewrite !bind_assoc, put_pushes. apply bind_pushes. intros b2 Hb2. cbn [bind]. rewrite bind_fmtFrac by assumption.
      apply bind_pushes. intros b3 Hb3. apply fmtInt_spec; auto.
Qed.

Lemma dstr_app a b : dstr (a ++ b) = dstr a ++ dstr b.
Proof. unfold dstr. now rewrite map_app, concat_app. Qed.
Lemma div_lt64 u n : u < two64 -> u / n < two64.
Proof.
  intros H. destruct (N.eq_dec n 0) as [->|Hn]; [replace (u / 0) with 0 by (now destruct u); lia|].
  eapply N.le_lt_trans; [|exact H]. apply N.div_le_upper_bound; auto. nia.
Qed.
Lemma mod_lt64 u n : u < two64 -> u mod n < two64.
Proof.
  intros H. destruct (N.eq_dec n 0) as [->|Hn]; [destruct u; exact H|].
  eapply N.le_lt_trans; [|exact H]. apply N.mod_le. auto.
Qed.
Local Hint Resolve div_lt64 mod_lt64 : dur.

Lemma dstr_i v u n : dstr [iterm v u n] = num v ++ u.
Proof. unfold dstr, tstr, iterm. cbn [map concat t_int t_frac t_unit]. now rewrite app_nil_r. Qed.
Lemma frac_text u : u < two64 ->
  (do b1 <- put 115 [];
   do (b2, u1) <- fmtFrac b1 u 9;
   do b3 <- fmtInt b2 (u1 mod 60);
   let u2 := u1 / 60 in
   if 0 <? u2 then
     do b4 <- put 109 b3;
     do b5 <- fmtInt b4 (u2 mod 60);
     let u3 := u2 / 60 in
     if 0 <? u3 then do b6 <- put 104 b5; fmtInt b6 u3 else Ok b5
   else Ok b3) = pushes (dstr (frac_terms u)) [].
Proof.
  intros Hu. rewrite put_pushes. unfold frac_terms. cbv zeta.
  change (10 ^ N.of_nat 9) with Second. rewrite !dstr_app.
  assert (L : dstr [Term (num (u / Second mod 60)) (t_frac (fterm 9 u (s_ "s") Second)) (s_ "s") Second]
              = (num (u / Second mod 60) ++ fpart 9 u) ++ [115]).
  { unfold dstr, tstr, fterm, fpart. cbn [map concat t_int t_frac t_unit].
    change (10 ^ N.of_nat 9) with Second. rewrite app_nil_r, <- app_assoc. now destruct (_ =? 0). }
  rewrite L, !app_assoc. clear L.
  apply bind_pushes. intros b1 Hb1. rewrite bind_fmtFrac by assumption.
  apply bind_pushes. intros b2 Hb2. change (10 ^ N.of_nat 9) with Second.
  rewrite fmtInt_spec by auto with dur.
  apply bind_pushes. intros b3 Hb3. unfold ipart.
  destruct (N.ltb_spec 0 (u / Second / 60)) as [H2|H2].
  - rewrite dstr_i, put_pushes. change (s_ "m") with [109]. rewrite app_assoc.
    apply bind_pushes. intros b4 Hb4. rewrite fmtInt_spec by auto 6 with dur.
    apply bind_pushes. intros b5 Hb5. destruct (0 <? u / Second / 60 / 60).
    + rewrite dstr_i, put_pushes. change (s_ "h") with [104]. apply bind_pushes. intros b6 Hb6.
      apply fmtInt_spec; auto 6 with dur.
    + change (dstr []) with (@nil N). now rewrite pushes_nil.
  - replace (u / Second / 60) with 0 by nlia. cbn [N.ltb]. change (0 <? 0 / 60) with false.
    change (dstr []) with (@nil N). cbv iota. now rewrite pushes_nil.
Qed.

Lemma mod_mod_mul u a b : a <> 0 -> b <> 0 -> (u mod (a * b)) mod b = u mod b.
Proof.
  intros Ha Hb. rewrite (N.mul_comm a b), N.mod_mul_r by assumption. rewrite (N.mul_comm b), N.mod_add by assumption.
  apply N.mod_mod. assumption.
Qed.
Lemma plain_text u : u < two64 ->
  (let '(days, u1) := if Day <=? u then (u / 24 / Hour, u mod (24 * Hour)) else (0, u) in
   let '(hours, u2) := cut u1 Hour in
   let '(minutes, u3) := cut u2 Minute in
   let '(seconds, u4) := cut u3 Second in
   let '(ms, u5) := cut u4 Millisecond in
   let '(us, ns) := cut u5 Microsecond in
   do b1 <- part ns [115; 110] [];
   do b2 <- part us [115; 181; 194] b1;
   do b3 <- part ms [115; 109] b2;
   do b4 <- part seconds [115] b3;
   do b5 <- part minutes [109] b4;
   do b6 <- part hours [104] b5;
   part days [100] b6) = pushes (dstr (plain_terms u)) [].
Proof.
  intros Hu.
  assert (E : (if Day <=? u then (u / 24 / Hour, u mod (24 * Hour)) else (0, u)) = (u / Day, u mod Day)).
  { change (24 * Hour) with Day. rewrite N.div_div by (vm_compute; discriminate). change (24 * Hour) with Day.
    apply (cut_spec u Day). reflexivity. }
  rewrite E. rewrite (cut_spec _ Hour) by reflexivity. cbv zeta. rewrite (cut_spec _ Minute) by reflexivity.
  rewrite (cut_spec _ Second) by reflexivity. rewrite (cut_spec _ Millisecond), (cut_spec _ Microsecond) by reflexivity.
  assert (E1 : u mod Day mod Hour = u mod Hour) by (apply (mod_mod_mul u 24 Hour); discriminate).
  assert (E2 : u mod Hour mod Minute = u mod Minute) by (apply (mod_mod_mul u 60 Minute); discriminate).
  assert (E3 : u mod Minute mod Second = u mod Second) by (apply (mod_mod_mul u 60 Second); discriminate).
  assert (E4 : u mod Second mod Millisecond = u mod Millisecond) by (apply (mod_mod_mul u 1000 Millisecond); discriminate).
  assert (E5 : u mod Millisecond mod Microsecond = u mod Microsecond) by (apply (mod_mod_mul u 1000 Microsecond); discriminate).
  rewrite E1, E2, E3, E4, E5. unfold plain_terms. rewrite !dstr_app, !app_assoc.
  rewrite (part_spec _ _ (s_ "ns") 1) by (auto with dur; cbn; lia). apply bind_pushes. intros b1 Hb1.
  rewrite (part_spec _ _ uU Microsecond) by auto with dur. apply bind_pushes. intros b2 Hb2.
  rewrite (part_spec _ _ (s_ "ms") Millisecond) by auto with dur. apply bind_pushes. intros b3 Hb3.
  rewrite (part_spec _ _ (s_ "s") Second) by auto with dur. apply bind_pushes. intros b4 Hb4.
  rewrite (part_spec _ _ (s_ "m") Minute) by auto with dur. apply bind_pushes. intros b5 Hb5.
  rewrite (part_spec _ _ (s_ "h") Hour) by auto with dur. apply bind_pushes. intros b6 Hb6.
  apply part_spec; auto with dur.
Qed.

(** formatting writes the text, and panics exactly when it does not fit into 32 bytes *)
Theorem format_spec d frac : dur_range d ->
  shortDurFormat d frac = if (length (dtext d frac) <=? bufsize)%nat then Ok (dtext d frac) else Panic.
Proof.
  intros Hd. destruct (absu_abs d Hd) as [E L]. unfold shortDurFormat, dtext. rewrite E. set (u := Z.abs_N d) in *.
  assert (Hu : u < two64) by (rewrite two63_v, two64_v in *; lia).
  transitivity (pushes ((if (d <? 0)%Z then [45] else []) ++ dstr (dterms u frac)) []).
  2:{ unfold pushes. rewrite app_nil_r, Nat.add_0_r. reflexivity. }
  rewrite <- pushes_app. unfold dterms. cbv zeta.
  assert (X : forall (r : res gostring) l, r = pushes l [] ->
     (do b <- r; if (d <? 0)%Z then put 45 b else Ok b) =
     (do b1 <- pushes l []; pushes (if (d <? 0)%Z then [45] else []) b1)).
  { intros r l ->. apply bind_ext. intros b Eb. destruct (d <? 0)%Z; [apply put_pushes|].
    rewrite pushes_nil; auto. eapply pushes_len; eauto. }
  destruct (N.ltb_spec u Second); [apply X, small_text; assumption|].
  destruct frac; [apply X, frac_text; assumption|apply X, plain_text; assumption].
Qed.

(** ** what the written terms denote *)
Lemma dsum_app a b : dsum (a ++ b) = dsum a + dsum b.
Proof. unfold dsum. induction a as [|t a IH]; cbn [app fold_right]; [lia|]. rewrite IH. lia. Qed.
Lemma iterm_val v u n : v < two64 -> tval (iterm v u n) = v * n.
Proof.
  intros H. unfold tval, iterm, frac_digits. cbn [t_int t_frac t_ns length]. rewrite num_val by assumption.
  change (val []) with 0. change (10 ^ N.of_nat 0) with 1. rewrite N.mul_0_l, N.div_0_l by lia. lia.
Qed.
Lemma iterm_ok v u n : In (u, n) units -> good_term (iterm v u n) /\ exact_term (iterm v u n).
Proof.
  intros Hu. unfold good_term, exact_term, iterm, frac_digits. cbn [t_int t_frac t_unit t_ns length].
  split; [split; [apply num_digits|split; [constructor|split; [left; apply num_nonempty|assumption]]]|].
  exists n. change (10 ^ N.of_nat 0) with 1. lia.
Qed.
Lemma ipart_val v u n : v < two64 -> dsum (ipart v u n) = v * n.
Proof.
  intros H. unfold ipart. destruct (N.ltb_spec 0 v); cbn [dsum fold_right].
  - rewrite iterm_val by assumption. lia.
  - replace v with 0 by lia. lia.
Qed.
Definition ok_term (t : term) : Prop := good_term t /\ exact_term t.
Lemma ipart_ok v u n : In (u, n) units -> Forall ok_term (ipart v u n).
Proof. intros H. unfold ipart. destruct (0 <? v); constructor; [now apply iterm_ok|constructor]. Qed.

(** a number with a fraction of [prec] digits whose unit is [10^prec] *)
Definition fval (prec : nat) (v : N) (ip : N) (u : gostring) (n : N) : term :=
  Term (num ip) (t_frac (fterm prec v u n)) u n.
Lemma fval_ok prec v ip u n : In (u, n) units -> (exists q, n = q * 10 ^ N.of_nat prec) -> ok_term (fval prec v ip u n).
Proof.
  intros Hu [q Hq]. unfold ok_term, good_term, exact_term, fval, frac_digits, fterm. cbn [t_int t_frac t_unit t_ns].
  destruct (ftext_false prec v) as [L _]. pose proof (ftext_digits prec false v).
  split; [split; [apply num_digits|split; [destruct (_ =? 0); [constructor|assumption]|
    split; [left; apply num_nonempty|assumption]]]|].
  destruct (_ =? 0); cbn [length].
  - exists n. change (10 ^ N.of_nat 0) with 1. lia.
  - exists (q * 10 ^ N.of_nat (prec - length (ftext prec false v))). rewrite Hq, <- N.mul_assoc. f_equal.
    rewrite <- N.pow_add_r. f_equal. lia.
Qed.
Lemma fval_val prec v ip u n : ip < two64 -> n = 10 ^ N.of_nat prec ->
  tval (fval prec v ip u n) = ip * n + v mod n.
Proof.
  intros Hip ->. unfold tval, fval, frac_digits, fterm. cbn [t_int t_frac t_ns]. rewrite num_val by assumption. f_equal.
  destruct (ftext_false prec v) as [L V].
  destruct (N.eqb_spec (v mod 10 ^ N.of_nat prec) 0) as [E|E]; cbn [length].
  - change (val []) with 0. rewrite E, N.mul_0_l. apply N.div_0_l. apply N.pow_nonzero. lia.
  - rewrite <- V. set (k := length (ftext prec false v)) in *.
    replace (10 ^ N.of_nat prec) with (10 ^ N.of_nat (prec - k) * 10 ^ N.of_nat k).
    + rewrite N.mul_assoc. apply N.div_mul. apply N.pow_nonzero. lia.
    + rewrite <- N.pow_add_r. f_equal. lia.
Qed.

Lemma unit_in s n : (exists l r, units = l ++ (s_ s, n) :: r) -> In (s_ s, n) units.
Proof. intros (l & r & ->). apply in_or_app. right. now left. Qed.
Lemma u_ns : In (s_ "ns", 1) units. Proof. unfold units. cbn. auto 12. Qed.
Lemma u_us : In (uU, Microsecond) units. Proof. unfold units. cbn. auto 12. Qed.
Lemma u_ms : In (s_ "ms", Millisecond) units. Proof. unfold units. cbn. auto 12. Qed.
Lemma u_s : In (s_ "s", Second) units. Proof. unfold units. cbn. auto 12. Qed.
Lemma u_m : In (s_ "m", Minute) units. Proof. unfold units. cbn. do 6 right. left. reflexivity. Qed.
Lemma u_h : In (s_ "h", Hour) units. Proof. unfold units. cbn. do 7 right. left. reflexivity. Qed.
Lemma u_d : In (s_ "d", Day) units. Proof. unfold units. cbn. do 8 right. left. reflexivity. Qed.

Lemma fterm_ip prec v u n : fterm prec v u n = fval prec v (v / 10 ^ N.of_nat prec) u n.
Proof. reflexivity. Qed.
Lemma dm a b : b <> 0 -> a / b * b + a mod b = a.
Proof. intros H. pose proof (N.div_mod a b H). nlia. Qed.
Lemma fterm_val prec v u n : v < two64 -> n = 10 ^ N.of_nat prec -> tval (fterm prec v u n) = v.
Proof.
  intros Hv ->. rewrite fterm_ip, fval_val by auto with dur. apply dm. apply N.pow_nonzero. lia.
Qed.

Lemma dterms_ok u frac : Forall ok_term (dterms u frac) /\ dterms u frac <> [].
Proof.
  unfold dterms. destruct (u <? Second) eqn:E0.
  - unfold small_terms. split.
    + destruct (u <? Microsecond); [destruct (u =? 0)|destruct (u <? Millisecond)]; (constructor; [|constructor]).
      * apply iterm_ok, u_s.
      * apply fval_ok; [apply u_ns|exists 1; reflexivity].
      * apply fval_ok; [apply u_us|exists 1; reflexivity].
      * apply fval_ok; [apply u_ms|exists 1; reflexivity].
    + destruct (u <? Microsecond); [destruct (u =? 0)|destruct (u <? Millisecond)]; discriminate.
  - destruct frac.
    + unfold frac_terms. cbv zeta. split.
      * apply Forall_app. split; [apply ipart_ok, u_h|]. apply Forall_app. split.
        -- destruct (0 <? _); constructor; [apply iterm_ok, u_m|constructor].
        -- constructor; [|constructor]. apply (fval_ok 9 u _ (s_ "s") Second); [apply u_s|exists 1; reflexivity].
      * intros X. apply app_eq_nil in X. destruct X as [_ X]. apply app_eq_nil in X. destruct X as [_ X]. discriminate X.
    + unfold plain_terms. split.
      * repeat (apply Forall_app; split); apply ipart_ok; auto using u_d, u_h, u_m, u_s, u_ms, u_us, u_ns.
      * apply N.ltb_ge in E0. intros X.
        assert (Z : u = 0); [|subst u; unfold Second in E0; lia].
        repeat (apply app_eq_nil in X; destruct X as [?Y X]).
        assert (P : forall v s n, ipart v s n = [] -> v = 0).
        { intros v s n H. unfold ipart in H. destruct (N.ltb_spec 0 v); [discriminate|lia]. }
        apply P in Y, Y0, Y1, Y2, Y3, Y4, X.
        pose proof (dm u Day ltac:(discriminate)) as A0.
        pose proof (dm (u mod Day) Hour ltac:(discriminate)) as A1.
        pose proof (dm (u mod Hour) Minute ltac:(discriminate)) as A2.
        pose proof (dm (u mod Minute) Second ltac:(discriminate)) as A3.
        pose proof (dm (u mod Second) Millisecond ltac:(discriminate)) as A4.
        pose proof (dm (u mod Millisecond) Microsecond ltac:(discriminate)) as A5.
        assert (E1 : u mod Day mod Hour = u mod Hour) by (apply (mod_mod_mul u 24 Hour); discriminate).
        assert (E2 : u mod Hour mod Minute = u mod Minute) by (apply (mod_mod_mul u 60 Minute); discriminate).
        assert (E3 : u mod Minute mod Second = u mod Second) by (apply (mod_mod_mul u 60 Second); discriminate).
        assert (E4 : u mod Second mod Millisecond = u mod Millisecond) by (apply (mod_mod_mul u 1000 Millisecond); discriminate).
        assert (E5 : u mod Millisecond mod Microsecond = u mod Microsecond) by (apply (mod_mod_mul u 1000 Microsecond); discriminate).
        rewrite E1 in A1. rewrite E2 in A2. rewrite E3 in A3. rewrite E4 in A4. rewrite E5 in A5.
        rewrite Y in A0. rewrite Y0 in A1. rewrite Y1 in A2. rewrite Y2 in A3. rewrite Y3 in A4. rewrite Y4 in A5. rewrite X in A5.
        rewrite !N.mul_0_l, !N.add_0_l in *. congruence.
Qed.

Lemma dterms_sum u frac : u < two64 -> dsum (dterms u frac) = u.
Proof.
  intros Hu. unfold dterms. destruct (u <? Second) eqn:E0.
  - unfold small_terms. destruct (u <? Microsecond); [destruct (N.eqb_spec u 0)|destruct (u <? Millisecond)]; cbn [dsum fold_right].
    + subst. reflexivity.
    + rewrite fterm_val by auto. lia.
    + rewrite fterm_val by auto. lia.
    + rewrite fterm_val by auto. lia.
  - destruct frac.
    + unfold frac_terms. cbv zeta. rewrite !dsum_app, ipart_val by auto 6 with dur.
      change (Term (num (u / Second mod 60)) (t_frac (fterm 9 u (s_ "s") Second)) (s_ "s") Second)
        with (fval 9 u (u / Second mod 60) (s_ "s") Second).
      cbn [dsum fold_right]. rewrite fval_val by auto with dur.
      assert (M : dsum (if 0 <? u / Second / 60 then [iterm (u / Second / 60 mod 60) (s_ "m") Minute] else [])
                  = u / Second / 60 mod 60 * Minute).
      { destruct (N.ltb_spec 0 (u / Second / 60)) as [H|H]; cbn [dsum fold_right].
        - rewrite iterm_val by auto 6 with dur. lia.
        - replace (u / Second / 60) with 0 by nlia. reflexivity. }
      rewrite M.
      pose proof (dm u Second ltac:(discriminate)) as A0.
      pose proof (dm (u / Second) 60 ltac:(discriminate)) as A1.
      pose proof (dm (u / Second / 60) 60 ltac:(discriminate)) as A2.
      change Hour with (60 * 60 * Second). change Minute with (60 * Second).
      revert A0 A1 A2. generalize (u / Second / 60 / 60), (u / Second / 60 mod 60), (u / Second mod 60), (u mod Second), (u / Second / 60), (u / Second).
      intros. unfold Second in *. lia.
    + unfold plain_terms. rewrite !dsum_app, !ipart_val by auto with dur.
      pose proof (dm u Day ltac:(discriminate)) as A0.
      pose proof (dm (u mod Day) Hour ltac:(discriminate)) as A1.
      pose proof (dm (u mod Hour) Minute ltac:(discriminate)) as A2.
      pose proof (dm (u mod Minute) Second ltac:(discriminate)) as A3.
      pose proof (dm (u mod Second) Millisecond ltac:(discriminate)) as A4.
      pose proof (dm (u mod Millisecond) Microsecond ltac:(discriminate)) as A5.
      assert (E1 : u mod Day mod Hour = u mod Hour) by (apply (mod_mod_mul u 24 Hour); discriminate).
      assert (E2 : u mod Hour mod Minute = u mod Minute) by (apply (mod_mod_mul u 60 Minute); discriminate).
      assert (E3 : u mod Minute mod Second = u mod Second) by (apply (mod_mod_mul u 60 Second); discriminate).
      assert (E4 : u mod Second mod Millisecond = u mod Millisecond) by (apply (mod_mod_mul u 1000 Millisecond); discriminate).
      assert (E5 : u mod Millisecond mod Microsecond = u mod Microsecond) by (apply (mod_mod_mul u 1000 Microsecond); discriminate).
      rewrite E1 in A1. rewrite E2 in A2. rewrite E3 in A3. rewrite E4 in A4. rewrite E5 in A5.
      rewrite N.mul_1_r. rewrite A5, A4, A3, A2, A1, A0. reflexivity.
Qed.

(** ** reading back what was written *)
Theorem format_parse d frac s : dur_range d -> shortDurFormat d frac = Ok s -> ParseDuration s = Ok (Some d).
Proof.
  intros Hd E. rewrite format_spec in E by assumption.
  destruct (_ <=? _)%nat; [|discriminate]. inversion E. clear E. subst s.
  destruct (absu_abs d Hd) as [_ L]. destruct (dterms_ok (Z.abs_N d) frac) as [Ok Ne].
  assert (Hu : Z.abs_N d < two64) by (rewrite two63_v, two64_v in *; lia).
  pose proof (dterms_sum (Z.abs_N d) frac Hu) as Sm.
  assert (G : Forall good_term (dterms (Z.abs_N d) frac)) by (eapply Forall_impl; [|exact Ok]; now intros a []).
  assert (X : Forall exact_term (dterms (Z.abs_N d) frac)) by (eapply Forall_impl; [|exact Ok]; now intros a []).
  assert (W : nowrap (dterms (Z.abs_N d) frac)) by (left; now rewrite Sm).
  unfold dtext, dur_range in *. change (2 ^ 63)%Z with 9223372036854775808%Z in Hd.
  destruct (Z.ltb_spec d 0).
  - rewrite (parse_terms [45] true); auto; [|right; right; auto].
    rewrite Sm. destruct (N.leb_spec (Z.abs_N d) two63); [|lia]. do 2 f_equal. lia.
  - rewrite (parse_terms [] false); auto; [|left; auto].
    rewrite Sm. rewrite two63_v in *. destruct (N.ltb_spec (Z.abs_N d) 9223372036854775808); [|lia]. do 2 f_equal. lia.
Qed.

(** ** when the text fits *)
Lemma pow_lt a k : a < 10 ^ N.of_nat k -> (1 <= k)%nat -> (length (num a) <= k)%nat.
Proof. apply num_len. Qed.
Lemma ipart_len v u n k : v < 10 ^ N.of_nat k -> (1 <= k)%nat -> (length (dstr (ipart v u n)) <= k + length u)%nat.
Proof.
  intros H Hk. unfold ipart. destruct (0 <? v); [|cbn; lia]. rewrite dstr_i, app_length.
  pose proof (num_len v k H Hk). lia.
Qed.
Lemma fterm_len prec v u n k : v / 10 ^ N.of_nat prec < 10 ^ N.of_nat k -> (1 <= k)%nat ->
  (length (tstr (fterm prec v u n)) <= k + S prec + length u)%nat.
Proof.
  intros H Hk. rewrite tstr_f, !app_length. pose proof (num_len _ k H Hk).
  assert (length (fpart prec v) <= S prec)%nat; [|lia].
  unfold fpart. destruct (_ =? 0); cbn [length]; [lia|]. destruct (ftext_false prec v). lia.
Qed.
Lemma small_len u : u < Second -> (length (dstr (small_terms u)) <= 15)%nat.
Proof.
  intros Hu. unfold small_terms.
  destruct (N.ltb_spec u Microsecond); [destruct (N.eqb_spec u 0)|destruct (N.ltb_spec u Millisecond)];
    unfold dstr; cbn [map concat]; rewrite app_nil_r.
  - vm_compute. lia.
  - pose proof (fterm_len 0 u (s_ "ns") 1 3) as X. cbn [length s_] in X. change (10 ^ N.of_nat 0) with 1 in X.
    rewrite N.div_1_r in X. specialize (X ltac:(assumption) ltac:(lia)). cbn in X. cbn. lia.
  - pose proof (fterm_len 3 u uU Microsecond 3) as X.
    specialize (X ltac:(apply N.div_lt_upper_bound; [discriminate|]; assumption) ltac:(lia)). cbn [length uU] in X. lia.
  - pose proof (fterm_len 6 u (s_ "ms") Millisecond 3) as X.
    specialize (X ltac:(apply N.div_lt_upper_bound; [discriminate|]; assumption) ltac:(lia)).
    change (length (s_ "ms")) with 2%nat in X. lia.
Qed.
Lemma frac_len u : u <= two63 -> (length (dstr (frac_terms u)) <= 25)%nat.
Proof.
  intros Hu. unfold frac_terms. cbv zeta. rewrite !dstr_app, !app_length.
  assert (H3 : u / Second / 60 / 60 < 10 ^ N.of_nat 7).
  { rewrite !N.div_div by discriminate. apply N.div_lt_upper_bound; [discriminate|]. eapply N.le_lt_trans; [exact Hu|]. reflexivity. }
  pose proof (ipart_len (u / Second / 60 / 60) (s_ "h") Hour 7 H3 ltac:(lia)) as L3. change (length (s_ "h")) with 1%nat in L3.
  assert (L2 : (length (dstr (if (0 <? u / Second / 60)%N then [iterm (u / Second / 60 mod 60) (s_ "m") Minute] else [])) <= 3)%nat).
  { destruct (0 <? _)%N; [|cbn; lia]. rewrite dstr_i, app_length. change (length (s_ "m")) with 1%nat.
    pose proof (num_len (u / Second / 60 mod 60) 2) as X. specialize (X ltac:(eapply N.lt_trans; [apply N.mod_lt; discriminate|reflexivity]) ltac:(lia)). lia. }
  assert (L1 : (length (dstr [Term (num (u / Second mod 60)) (t_frac (fterm 9 u (s_ "s") Second)) (s_ "s") Second]) <= 13)%nat).
  { unfold dstr, tstr, fterm. cbn [map concat t_int t_frac t_unit]. rewrite app_nil_r, !app_length. change (length (s_ "s")) with 1%nat.
    pose proof (num_len (u / Second mod 60) 2) as X. specialize (X ltac:(eapply N.lt_trans; [apply N.mod_lt; discriminate|reflexivity]) ltac:(lia)).
    destruct (ftext_false 9 u) as [Y _]. destruct (_ =? 0)%N; cbn [length]; lia. }
  lia.
Qed.
Lemma mod_lt_pow u a b k : b <> 0 -> a < b * 10 ^ N.of_nat k -> a <> 0 -> u mod a / b < 10 ^ N.of_nat k.
Proof.
  intros Hb Ha H0. apply N.div_lt_upper_bound; auto. eapply N.lt_trans; [apply N.mod_lt; assumption|exact Ha].
Qed.
(** the six smaller parts take at most 25 bytes *)
Lemma plain_len u k : u / Day < 10 ^ N.of_nat k -> (1 <= k)%nat -> (length (dstr (plain_terms u)) <= S k + 25)%nat.
Proof.
  intros Hd Hk. unfold plain_terms. rewrite !dstr_app, !app_length.
  pose proof (ipart_len (u / Day) (s_ "d") Day k Hd Hk) as L0. change (length (s_ "d")) with 1%nat in L0.
  pose proof (ipart_len (u mod Day / Hour) (s_ "h") Hour 2 ltac:(apply mod_lt_pow; (discriminate || reflexivity)) ltac:(lia)) as L1.
  pose proof (ipart_len (u mod Hour / Minute) (s_ "m") Minute 2 ltac:(apply mod_lt_pow; (discriminate || reflexivity)) ltac:(lia)) as L2.
  pose proof (ipart_len (u mod Minute / Second) (s_ "s") Second 2 ltac:(apply mod_lt_pow; (discriminate || reflexivity)) ltac:(lia)) as L3.
  pose proof (ipart_len (u mod Second / Millisecond) (s_ "ms") Millisecond 3) as L4.
  pose proof (ipart_len (u mod Millisecond / Microsecond) uU Microsecond 3) as L5.
  pose proof (ipart_len (u mod Microsecond) (s_ "ns") 1 3 ltac:(apply N.mod_lt; discriminate) ltac:(lia)) as L6.
  change (length (s_ "h")) with 1%nat in L1. change (length (s_ "m")) with 1%nat in L2.
  change (length (s_ "s")) with 1%nat in L3. change (length (s_ "ms")) with 2%nat in L4.
  change (length uU) with 3%nat in L5. change (length (s_ "ns")) with 2%nat in L6.
  assert (M4 : u mod Second / Millisecond < 10 ^ N.of_nat 3) by (apply N.div_lt_upper_bound; [discriminate|]; apply N.mod_lt; discriminate).
  assert (M5 : u mod Millisecond / Microsecond < 10 ^ N.of_nat 3) by (apply N.div_lt_upper_bound; [discriminate|]; apply N.mod_lt; discriminate).
  specialize (L4 M4 ltac:(lia)). specialize (L5 M5 ltac:(lia)). lia.
Qed.
(** formatting never fails for the fractional form, for durations that are not negative,
    and for negative ones shorter than 100000 days (some 273 years) *)
Theorem format_total d frac : dur_range d ->
  frac = true \/ (0 <= d)%Z \/ (- 100000 * Z.of_N Day < d)%Z ->
  exists s, shortDurFormat d frac = Ok s /\ (length s <= 32)%nat.
Proof.
  intros Hd H. exists (dtext d frac). rewrite format_spec by assumption.
  assert (L : (length (dtext d frac) <= bufsize)%nat).
  2:{ destruct (Nat.leb_spec (length (dtext d frac)) bufsize); [auto|lia]. }
  destruct (absu_abs d Hd) as [_ Hu]. unfold dtext. rewrite app_length. unfold dterms, bufsize.
  assert (S1 : (length (if (d <? 0)%Z then [45%N] else []) <= 1)%nat) by (destruct (d <? 0)%Z; cbn; lia).
  destruct (N.ltb_spec (Z.abs_N d) Second) as [Hs|Hs].
  { pose proof (small_len _ Hs). lia. }
  destruct frac.
  { pose proof (frac_len _ Hu). lia. }
  destruct (Z.ltb_spec d 0) as [Hn|Hn]; cbn [length].
  - assert (X : Z.abs_N d / Day < 10 ^ N.of_nat 5).
    { apply N.div_lt_upper_bound; [discriminate|]. destruct H as [H|[H|H]]; [discriminate|lia|].
      unfold Day in *. change (10 ^ N.of_nat 5) with 100000. 
      set (D := 24 * Hour) in *. assert (D = 86400000000000) by reflexivity. lia. }
    pose proof (plain_len _ 5 X ltac:(lia)). lia.
  - assert (X : Z.abs_N d / Day < 10 ^ N.of_nat 6).
    { apply N.div_lt_upper_bound; [discriminate|]. eapply N.le_lt_trans; [exact Hu|]. reflexivity. }
    pose proof (plain_len _ 6 X ltac:(lia)). lia.
Qed.
