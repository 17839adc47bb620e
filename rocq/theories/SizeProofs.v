(** Size strings: what FromKibiBytes and FromKiloBytes return. *)
From Coq Require Import String.
From Coq Require Import List NArith Bool Arith Lia.
From Verif Require Import GoStr Utf8 Node Trie Dur Cvter.
Import ListNotations.
Open Scope N_scope.
Open Scope list_scope.

(** ** specification *)
Definition value (ds : list N) : N := fold_left (fun n c => 10 * n + (c - 48)) ds 0.
(** a decimal number: digits, no leading zero except for 0 itself *)
Definition number (ds : list N) : Prop :=
  ds <> [] /\ Forall (fun c => is_digit c = true) ds /\ (hd 48 ds = 48 -> ds = [48]).
Definition blank (c : N) : bool := mem c [9; 10; 11; 12; 13; 32].
(** the powers of the unit by suffix *)
Definition power (c : N) : option N :=
  if mem c (s2b "kK"%string) then Some 1 else if mem c (s2b "mM"%string) then Some 2
  else if mem c (s2b "gG"%string) then Some 3 else if mem c (s2b "tT"%string) then Some 4
  else if mem c (s2b "pP"%string) then Some 5 else if mem c (s2b "eE"%string) then Some 6
  else None.

(** ** trimming *)
Lemma drop_stop l c s : Forall (fun p => p <> [] /\ hd 0 p <> c) l -> drop_one l (c :: s) = None.
Proof.
  unfold drop_one. induction l as [|p l IH]; intros F; [reflexivity|]. inversion F as [|? ? [F1 F2] F3]; subst.
  cbn [filter]. destruct p as [|x p]; [congruence|]. cbn [has_prefix hd] in *.
  destruct (N.eqb_spec x c); [congruence|]. cbn [andb]. now apply IH.
Qed.
Lemma trim_stop l c s f : Forall (fun p => p <> [] /\ hd 0 p <> c) l -> trim_left f l (c :: s) = c :: s.
Proof. intros F. destruct f; cbn; auto. now rewrite drop_stop. Qed.
Lemma trim_nil l f : Forall (fun p => p <> []) l -> trim_left f l [] = [].
Proof.
  intros F. destruct f; cbn; auto. unfold drop_one.
  assert (E : filter (fun p => has_prefix p []) l = []).
  { induction l as [|p l IH]; auto. inversion F; subst. cbn. destruct p; [congruence|]. now apply IH. }
  now rewrite E.
Qed.
(** a byte that is neither blank nor above ASCII starts and ends no space *)
Definition solid (c : N) : Prop := c < 128 /\ blank c = false.
Ltac all_list := repeat (apply Forall_cons; [|]); [.. | apply Forall_nil].
Lemma solid_hd c : solid c -> Forall (fun p => p <> [] /\ hd 0 p <> c) spaces.
Proof.
  intros [L B]. apply Forall_forall. intros p Hp. vm_compute in Hp. unfold blank, mem in B. cbn in B.
  repeat rewrite orb_false_iff in B. repeat rewrite N.eqb_neq in B.
  repeat (destruct Hp as [<-|Hp]; [split; [discriminate|cbn; lia]|]). destruct Hp.
Qed.
Lemma solid_last c : solid c -> Forall (fun p => p <> [] /\ hd 0 p <> c) (map (@rev N) spaces).
Proof.
  intros [L B]. apply Forall_forall. intros p Hp. vm_compute in Hp. unfold blank, mem in B. cbn in B.
  repeat rewrite orb_false_iff in B. repeat rewrite N.eqb_neq in B.
  repeat (destruct Hp as [<-|Hp]; [split; [discriminate|cbn; lia]|]). destruct Hp.
Qed.
Lemma drop_blank c s : blank c = true -> drop_one spaces (c :: s) = Some s /\ drop_one (map (@rev N) spaces) (c :: s) = Some s.
Proof.
  intros B. unfold blank, mem in B. apply existsb_exists in B. destruct B as (x & Hx & E). apply N.eqb_eq in E. subst x.
  cbn in Hx. repeat (destruct Hx as [<-|Hx]; [split; reflexivity|]). destruct Hx.
Qed.
Lemma trim_blanks l s f : Forall (fun c => blank c = true) l -> (length l <= f)%nat ->
  trim_left f spaces (l ++ s) = trim_left (f - length l) spaces s /\
  trim_left f (map (@rev N) spaces) (l ++ s) = trim_left (f - length l) (map (@rev N) spaces) s.
Proof.
  intros F. revert f. induction F as [|c l Hc F IH]; intros f L; cbn [length app] in *.
  - rewrite Nat.sub_0_r. auto.
  - destruct f as [|f]; [lia|]. cbn [trim_left]. destruct (drop_blank c (l ++ s) Hc) as [-> ->].
    destruct (IH f) as [-> ->]; [lia|]. cbn [Nat.sub]. auto.
Qed.
Lemma trim_space lead body trail :
  Forall (fun c => blank c = true) lead -> Forall (fun c => blank c = true) trail ->
  body <> [] -> solid (hd 0 body) -> solid (last body 0) -> TrimSpace (lead ++ body ++ trail) = body.
Proof.
  intros Fl Ft Hb S1 S2. unfold TrimSpace.
  assert (E1 : trim_left (length (lead ++ body ++ trail)) spaces (lead ++ body ++ trail) = body ++ trail).
  { destruct (trim_blanks lead (body ++ trail) (length (lead ++ body ++ trail)) Fl) as [-> _].
    { rewrite app_length. lia. }
    destruct body as [|c body]; [congruence|]. cbn [app]. apply trim_stop. now apply solid_hd. }
  rewrite E1. rewrite rev_app_distr.
  assert (Ft' : Forall (fun c => blank c = true) (rev trail)) by now apply Forall_rev.
  destruct (trim_blanks (rev trail) (rev body) (length (body ++ trail)) Ft') as [_ ->].
  { rewrite rev_length, app_length. lia. }
  destruct (exists_last Hb) as (b & x & ->). rewrite last_last in S2. rewrite rev_unit.
  rewrite trim_stop by now apply solid_last. cbn [rev]. now rewrite rev_involutive.
Qed.

Lemma drop_while_all p a b : Forall (fun c => p c = true) a -> drop_while p (a ++ b) = drop_while p b.
Proof. induction 1 as [|x a H F IH]; cbn; auto. now rewrite H. Qed.
Lemma drop_while_stop p c s : p c = false -> drop_while p (c :: s) = c :: s.
Proof. cbn. now intros ->. Qed.
Lemma trim_right body tl cut :
  body <> [] -> mem (last body 0) cut = false -> Forall (fun c => mem c cut = true) tl ->
  TrimRight (body ++ tl) cut = body.
Proof.
  intros Hb H F. unfold TrimRight. rewrite rev_app_distr, drop_while_all by now apply Forall_rev.
  destruct (exists_last Hb) as (b & x & ->). rewrite last_last in H. rewrite rev_unit, drop_while_stop by assumption.
  cbn [rev]. now rewrite rev_involutive.
Qed.
(** two cut sets in turn *)
Lemma drop_two p q u b : Forall (fun c => q c = true) u -> (b = [] \/ exists c t, b = c :: t /\ p c = false) ->
  exists u', Forall (fun c => q c = true) u' /\ drop_while p (u ++ b) = u' ++ b.
Proof.
  intros F Hb. induction F as [|x u Hx F IH]; cbn [app].
  - exists []. split; auto. destruct Hb as [->|(c & t & -> & Hc)]; [reflexivity|]. now apply drop_while_stop.
  - cbn [drop_while]. destruct (p x); [exact IH|]. exists (x :: u). split; auto.
Qed.
Lemma trim_right_two body x y cut1 cut2 :
  body <> [] -> mem (last body 0) cut1 = false -> mem (last body 0) cut2 = false ->
  Forall (fun c => mem c cut2 = true) x -> Forall (fun c => mem c cut1 = true) y ->
  TrimRight (TrimRight (body ++ x ++ y) cut1) cut2 = body.
Proof.
  intros Hb H1 H2 Fx Fy. unfold TrimRight. rewrite rev_involutive, !rev_app_distr, <- app_assoc.
  rewrite drop_while_all by now apply Forall_rev.
  destruct (drop_two (fun c => mem c cut1) (fun c => mem c cut2) (rev x) (rev body)) as (u & Fu & ->).
  { now apply Forall_rev. }
  { destruct (exists_last Hb) as (b & e & ->). rewrite last_last in H1. right. rewrite rev_unit. eauto. }
  rewrite drop_while_all by assumption.
  destruct (exists_last Hb) as (b & e & ->). rewrite last_last in H2. rewrite rev_unit, drop_while_stop by assumption.
  cbn [rev]. now rewrite rev_involutive.
Qed.

(** ** ParseUint of a decimal number *)
Lemma value_snoc ds c : value (ds ++ [c]) = 10 * value ds + (c - 48).
Proof. unfold value. now rewrite fold_left_app. Qed.
Lemma fold_value_mono ds : forall n, n <= fold_left (fun n c => 10 * n + (c - 48)) ds n.
Proof. induction ds as [|c ds IH]; intros n; cbn [fold_left]; [lia|]. specialize (IH (10 * n + (c - 48))). lia. Qed.
Lemma digit_range c : is_digit c = true -> 48 <= c <= 57.
Proof. unfold is_digit. rewrite andb_true_iff, !N.leb_le. lia. Qed.
Lemma digit_of_digit c : is_digit c = true -> digit_of c = Some (c - 48).
Proof. unfold digit_of. now intros ->. Qed.
Lemma pu_dec ds : forall n, Forall (fun c => is_digit c = true) ds -> n <= maxu64 ->
  pu_go 10 ds n = (let v := fold_left (fun n c => 10 * n + (c - 48)) ds n in if v <=? maxu64 then PNum v else PRange).
Proof.
  induction ds as [|c ds IH]; intros n F L; cbn [pu_go fold_left].
  - apply N.leb_le in L. cbn zeta. now rewrite L.
  - inversion F as [|? ? Hc F']; subst. pose proof (digit_range c Hc) as Rc.
    destruct (N.eqb_spec c 95) as [|_]; [lia|]. rewrite (digit_of_digit c Hc).
    destruct (N.leb_spec 10 (c - 48)) as [|_]; [lia|].
    assert (M : 10 * n + (c - 48) <= fold_left (fun n c => 10 * n + (c - 48)) ds (10 * n + (c - 48))) by apply fold_value_mono.
    cbn zeta. specialize (IH (10 * n + (c - 48)) F'). cbn zeta in IH. revert M IH.
    generalize (fold_left (fun n c => 10 * n + (c - 48)) ds (10 * n + (c - 48))). intros v M IH.
    assert (Q : maxu64 / 10 = 1844674407370955161) by reflexivity.
    assert (Q2 : maxu64 = 18446744073709551615) by reflexivity. rewrite Q.
    destruct (N.leb_spec (1844674407370955161 + 1) n) as [X|X].
    { destruct (N.leb_spec v maxu64); [lia|reflexivity]. }
    destruct (N.ltb_spec maxu64 (n * 10 + (c - 48))) as [Y|Y].
    { destruct (N.leb_spec v maxu64); [lia|reflexivity]. }
    replace (n * 10 + (c - 48)) with (10 * n + (c - 48)) in * by lia. now apply IH.
Qed.
Lemma digits_not ds c : Forall (fun c => is_digit c = true) ds -> is_digit c = false -> mem c ds = false.
Proof.
  intros F H. unfold mem. apply not_true_iff_false. rewrite existsb_exists. intros (x & Hx & E).
  apply N.eqb_eq in E. subst. rewrite Forall_forall in F. rewrite F in H; auto. discriminate.
Qed.
Lemma parse_number ds : number ds ->
  ParseUint ds = if value ds <=? maxu64 then (value ds, true) else (maxu64, false).
Proof.
  intros (Hn & F & Z). unfold ParseUint. destruct ds as [|c ds]; [congruence|]. cbn [is_nil].
  unfold base_of. destruct (N.eqb_spec c 48) as [->|Nc].
  - assert (E : ds = []) by (specialize (Z eq_refl); congruence). subst. reflexivity.
  - rewrite pu_dec by (auto; reflexivity || discriminate). cbn zeta.
    change (fold_left (fun n c => 10 * n + (c - 48)) (c :: ds) 0) with (value (c :: ds)).
    destruct (value (c :: ds) <=? maxu64); [|reflexivity].
    rewrite (digits_not _ 95 F) by reflexivity. reflexivity.
Qed.

(** ** the result *)
Lemma digit_solid c : is_digit c = true -> solid c.
Proof.
  intros H. apply digit_range in H. split; [lia|]. unfold blank, mem. cbn.
  repeat match goal with |- context [c =? ?k] => destruct (N.eqb_spec c k); [lia|] end. reflexivity.
Qed.
Lemma last_in (l : list N) : l <> [] -> In (last l 0) l.
Proof. intros H. destruct (exists_last H) as (b & x & ->). rewrite last_last. apply in_or_app. right. now left. Qed.
Lemma hd_in (l : list N) : l <> [] -> In (hd 0 l) l.
Proof. destruct l; [congruence|]. cbn. auto. Qed.
Lemma power_in c k : power c = Some k -> In c (s2b "kKmMgGtTpPeE"%string).
Proof.
  unfold power, mem. intros H.
  repeat match type of H with (if ?b then _ else _) = _ => let E := fresh in destruct b eqn:E;
    [apply existsb_exists in E; destruct E as (x & Hx & E); apply N.eqb_eq in E; subst x;
     cbn in Hx; cbn; intuition congruence|] end.
  discriminate.
Qed.
Ltac each H := cbn in H; repeat (destruct H as [<-|H]; [try (split; [reflexivity|reflexivity]); try reflexivity|]); try destruct H.
Lemma power_solid c k : power c = Some k -> solid c.
Proof. intros H. apply power_in in H. each H. Qed.
Lemma power_suffix c k : power c = Some k -> mem c suffixes = true.
Proof. intros H. apply power_in in H. each H. Qed.
Lemma power_cut c k : power c = Some k -> mem c (s2b "iBib"%string) = false.
Proof. intros H. apply power_in in H. each H. Qed.
Lemma power_times unit c k : power c = Some k -> sizeTimes unit c = unit ^ k.
Proof.
  intros H. pose proof (power_in c k H) as I. cbn in I.
  repeat (destruct I as [<-|I]; [vm_compute in H; injection H as <-; unfold sizeTimes; cbn [N.eqb Pos.eqb orb];
    rewrite ?N.pow_1_r; try reflexivity; change 2 with (N.succ 1); change 3 with (N.succ (N.succ 1));
    change 4 with (N.succ (N.succ (N.succ 1))); change 5 with (N.succ (N.succ (N.succ (N.succ 1))));
    change 6 with (N.succ (N.succ (N.succ (N.succ (N.succ 1)))));
    rewrite ?N.pow_succ_r', ?N.pow_1_r; lia|]).
  destruct I.
Qed.
Lemma digit_times unit c : is_digit c = true -> sizeTimes unit c = 1.
Proof.
  intros H. apply digit_range in H. unfold sizeTimes.
  repeat match goal with |- context [c =? ?k] => destruct (N.eqb_spec c k); [lia|] end. reflexivity.
Qed.
Lemma digit_not c cut : is_digit c = true -> forallb (fun x => negb (is_digit x)) cut = true -> mem c cut = false.
Proof.
  intros H F. unfold mem. apply not_true_iff_false. rewrite existsb_exists. intros (x & Hx & E).
  apply N.eqb_eq in E. subst. rewrite forallb_forall in F. apply F in Hx. now rewrite H in Hx.
Qed.
Lemma ascii_last_rune s c : ascii (s ++ [c]) = true -> last_rune (s ++ [c]) = Ok c.
Proof.
  intros H. unfold last_rune. rewrite (ascii_runes _ H), app_length, Nat.add_comm. cbn [length Nat.add pred].
  now rewrite nth_error_app2, Nat.sub_diag by lia.
Qed.
Lemma ascii_app a b : ascii (a ++ b) = ascii a && ascii b.
Proof. apply forallb_app. Qed.
Lemma solid_ascii l : Forall solid l -> ascii l = true.
Proof. intros F. apply forallb_forall. intros x Hx. rewrite Forall_forall in F. apply N.ltb_lt. now apply F. Qed.
Lemma blank_ascii l : Forall (fun c => blank c = true) l -> ascii l = true.
Proof.
  intros F. apply forallb_forall. intros x Hx. rewrite Forall_forall in F. apply F in Hx.
  unfold blank, mem in Hx. apply existsb_exists in Hx. destruct Hx as (y & Hy & E). apply N.eqb_eq in E. subst y.
  cbn in Hy. repeat (destruct Hy as [<-|Hy]; [reflexivity|]). destruct Hy.
Qed.
Lemma blank_suffix c : blank c = true -> mem c suffixes = false.
Proof.
  intros H. unfold blank, mem in H. apply existsb_exists in H. destruct H as (y & Hy & E). apply N.eqb_eq in E. subst y.
  each Hy.
Qed.
Lemma mem_cut c cut1 cut2 : mem c (cut1 ++ cut2) = mem c cut1 || mem c cut2.
Proof. apply existsb_app. Qed.

Section Bytes.
Variable PF : gostring -> option f64.
Variables (unit : N) (cut1 cut2 : gostring).
Hypothesis C : forallb (fun x => negb (is_digit x)) (cut1 ++ cut2) = true.
Hypothesis C0 : forall c k, power c = Some k -> mem c (cut1 ++ cut2) = false.
(** the tail and the blanks around trim away *)
Definition outcome (ds : list N) (times : N) : N :=
  if value ds <=? maxu64 then (value ds * times) mod two64 else maxu64.
Hypothesis Csolid : Forall solid (cut1 ++ cut2).

Lemma bytes_core lead ds mid sfx x y trail times :
  number ds -> Forall (fun c => blank c = true) lead -> Forall (fun c => blank c = true) trail ->
  Forall (fun c => blank c = true) mid ->
  (sfx = [] /\ mid = [] /\ times = 1 \/ exists c k, sfx = [c] /\ power c = Some k /\ times = unit ^ k) ->
  Forall (fun c => mem c cut2 = true) x -> Forall (fun c => mem c cut1 = true) y ->
  fromBytes PF unit cut1 cut2 (lead ++ (ds ++ mid ++ sfx ++ x ++ y) ++ trail) = Ok (outcome ds times).
Proof.
  intros Nd Fl Ft Fm Hs Fx Fy. pose proof Nd as (Hn & Fd & _). unfold fromBytes.
  pose proof (last_in ds Hn) as Ld. pose proof (hd_in ds Hn) as Hd.
  assert (Dl : is_digit (last ds 0) = true) by (rewrite Forall_forall in Fd; auto).
  assert (Dh : is_digit (hd 0 ds) = true) by (rewrite Forall_forall in Fd; auto).
  set (core := ds ++ mid ++ sfx).
  assert (Hc : core <> []) by (unfold core; destruct ds; [congruence|discriminate]).
  assert (Lc : solid (last core 0) /\ mem (last core 0) (cut1 ++ cut2) = false).
  { unfold core. destruct Hs as [(-> & -> & _)|(c & k & -> & Hk & _)].
    - cbn [app]. rewrite app_nil_r. split; [now apply digit_solid|now apply digit_not].
    - rewrite app_assoc, last_last. split; [eapply power_solid; eauto|eauto]. }
  destruct Lc as [Lc1 Lc2]. rewrite mem_cut, orb_false_iff in Lc2.
  replace (ds ++ mid ++ sfx ++ x ++ y) with (core ++ x ++ y) by (unfold core; now rewrite <- !app_assoc).
  assert (Sxy : Forall solid (x ++ y)).
  { apply Forall_forall. intros c H. rewrite Forall_forall in Csolid. apply Csolid. apply in_app_iff in H. apply in_app_iff.
    rewrite Forall_forall in Fx, Fy. destruct H as [H|H]; [apply Fx in H|apply Fy in H]; unfold mem in H;
      apply existsb_exists in H; destruct H as (z & Hz & E); apply N.eqb_eq in E; subst; auto. }
  rewrite trim_space; auto.
  2:{ destruct core; [congruence|discriminate]. }
  2:{ unfold core. destruct ds; [congruence|]. cbn [app hd]. now apply digit_solid. }
  2:{ destruct (x ++ y) as [|z l] eqn:E; [now rewrite app_nil_r|].
      assert (Hin : In (last (core ++ z :: l) 0) (z :: l)).
      { destruct (exists_last (l := z :: l)) as (b & e & Eb); [discriminate|]. rewrite Eb, app_assoc, last_last.
        apply in_or_app. right. now left. }
      rewrite Forall_forall in Sxy. auto. }
  rewrite trim_right_two by tauto.
  assert (T : TrimRight core suffixes = ds ++ mid).
  { unfold core. rewrite app_assoc. apply trim_right.
    - destruct ds; [congruence|discriminate].
    - destruct mid as [|m0 mid]; [rewrite app_nil_r; now apply digit_not|].
      destruct (exists_last (l := m0 :: mid)) as (b & e & Eb); [discriminate|]. rewrite Eb, app_assoc, last_last.
      apply blank_suffix. rewrite Forall_forall in Fm. apply Fm. rewrite Eb. apply in_or_app. right. now left.
    - destruct Hs as [(-> & _)|(c & k & -> & Hk & _)]; [constructor|]. constructor; [|constructor]. eapply power_suffix; eauto. }
  rewrite T.
  assert (T2 : TrimSpace (ds ++ mid) = ds).
  { apply (trim_space [] ds mid); auto; now apply digit_solid. }
  rewrite T2. rewrite (digits_not ds 46 Fd) by reflexivity. rewrite (parse_number ds Nd). unfold outcome.
  destruct (value ds <=? maxu64); [|reflexivity].
  assert (Ad : ascii ds = true).
  { apply solid_ascii. eapply Forall_impl; [|exact Fd]. cbn. intros. now apply digit_solid. }
  destruct Hs as [(Es & Em & Et)|(c & k & Es & Hk & Et)].
  - assert (Ec : core = ds) by (unfold core; rewrite Es, Em; cbn; now rewrite app_nil_r). rewrite Ec.
    destruct (exists_last Hn) as (b & e & Eb). rewrite Eb in *. rewrite last_last in Dl.
    rewrite ascii_last_rune by assumption. cbn [bind]. rewrite digit_times, Et by assumption. reflexivity.
  - unfold core. rewrite Es, app_assoc, ascii_last_rune.
    + cbn [bind]. rewrite (power_times unit c k Hk), Et. reflexivity.
    + rewrite !ascii_app, Ad, (blank_ascii mid Fm). cbn [andb].
      apply solid_ascii. constructor; [eapply power_solid; eauto|constructor].
Qed.
End Bytes.

Lemma kibi_cut c k : power c = Some k -> mem c (s2b "iB"%string ++ s2b "ib"%string) = false.
Proof. exact (power_cut c k). Qed.
Lemma kilo_cut c k : power c = Some k -> mem c (s2b "B"%string ++ s2b "b"%string) = false.
Proof. intros H. apply power_in in H. each H. Qed.

(** a number with a unit suffix, blanks around and in between, and a tail like iB or B *)
Theorem kibi_suffix PF lead ds mid c k x y trail :
  number ds -> power c = Some k ->
  Forall (fun c => blank c = true) (lead ++ mid ++ trail) ->
  Forall (fun b => mem b (s2b "ib"%string) = true) x -> Forall (fun b => mem b (s2b "iB"%string) = true) y ->
  FromKibiBytes PF (lead ++ (ds ++ mid ++ [c] ++ x ++ y) ++ trail) = Ok (outcome ds (1024 ^ k)).
Proof.
  intros Nd Hk Fb Fx Fy. apply Forall_app in Fb. destruct Fb as [F1 Fb]. apply Forall_app in Fb. destruct Fb as [F2 F3].
  unfold FromKibiBytes. apply bytes_core; auto; [exact kibi_cut| |right; eauto].
  cbn. repeat constructor.
Qed.
Theorem kilo_suffix PF lead ds mid c k x y trail :
  number ds -> power c = Some k ->
  Forall (fun c => blank c = true) (lead ++ mid ++ trail) ->
  Forall (fun b => mem b (s2b "b"%string) = true) x -> Forall (fun b => mem b (s2b "B"%string) = true) y ->
  FromKiloBytes PF (lead ++ (ds ++ mid ++ [c] ++ x ++ y) ++ trail) = Ok (outcome ds (1000 ^ k)).
Proof.
  intros Nd Hk Fb Fx Fy. apply Forall_app in Fb. destruct Fb as [F1 Fb]. apply Forall_app in Fb. destruct Fb as [F2 F3].
  unfold FromKiloBytes. apply bytes_core; auto; [exact kilo_cut| |right; eauto].
  cbn. repeat constructor.
Qed.
(** a bare number *)
Theorem kibi_bare PF lead ds x y trail :
  number ds -> Forall (fun c => blank c = true) (lead ++ trail) ->
  Forall (fun b => mem b (s2b "ib"%string) = true) x -> Forall (fun b => mem b (s2b "iB"%string) = true) y ->
  FromKibiBytes PF (lead ++ (ds ++ x ++ y) ++ trail) = Ok (outcome ds 1).
Proof.
  intros Nd Fb Fx Fy. apply Forall_app in Fb. destruct Fb as [F1 F2]. unfold FromKibiBytes.
  apply (bytes_core PF 1024 (s2b "iB"%string) (s2b "ib"%string) eq_refl kibi_cut) with (mid := []) (sfx := []); auto.
  cbn. repeat constructor.
Qed.
Theorem kilo_bare PF lead ds x y trail :
  number ds -> Forall (fun c => blank c = true) (lead ++ trail) ->
  Forall (fun b => mem b (s2b "b"%string) = true) x -> Forall (fun b => mem b (s2b "B"%string) = true) y ->
  FromKiloBytes PF (lead ++ (ds ++ x ++ y) ++ trail) = Ok (outcome ds 1).
Proof.
  intros Nd Fb Fx Fy. apply Forall_app in Fb. destruct Fb as [F1 F2]. unfold FromKiloBytes.
  apply (bytes_core PF 1000 (s2b "B"%string) (s2b "b"%string) eq_refl kilo_cut) with (mid := []) (sfx := []); auto.
  cbn. repeat constructor.
Qed.
(** if the size fits in 64 bits it is the size *)
Lemma outcome_fits ds times : 0 < times -> value ds * times < two64 -> outcome ds times = value ds * times.
Proof.
  intros T L. unfold outcome. assert (V : value ds <= value ds * times) by nia.
  destruct (N.leb_spec (value ds) maxu64) as [X|X]; [now apply N.mod_small|].
  unfold maxu64 in X. lia.
Qed.
