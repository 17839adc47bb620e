(** strings.Split / strings.Join round trips and the candidate list of BR lookups. *)
From Coq Require Import List NArith Bool Arith Lia.
From Verif Require Import GoStr Utf8 Spec.
Import ListNotations.
Open Scope nat_scope.

Lemma has_prefix_app p s : has_prefix p (p ++ s) = true.
Proof. induction p as [|c p IH]; cbn; auto. now rewrite N.eqb_refl. Qed.
Lemma has_prefix_ex p s : has_prefix p s = true -> exists t, s = p ++ t.
Proof.
  revert s; induction p as [|c p IH]; intros [|b s]; cbn; try discriminate; eauto.
  intros H. apply andb_true_iff in H. destruct H as [H1 H2]. apply N.eqb_eq in H1. subst.
  destruct (IH _ H2) as [t ->]. now exists t.
Qed.
Lemma has_prefix_false_app p s t : has_prefix p (s ++ t) = false -> has_prefix p s = false.
Proof.
  intros H. destruct (has_prefix p s) eqn:E; auto. apply has_prefix_ex in E. destruct E as [u ->].
  rewrite <- app_assoc, has_prefix_app in H. discriminate.
Qed.
Lemma contains_false sep x :
  contains sep x = false <-> (forall y z, x = y ++ z -> has_prefix sep z = false).
Proof.
  induction x as [|c x IH]; cbn.
  - rewrite orb_false_r. split.
    + intros H y z E. symmetry in E. apply app_eq_nil in E. now destruct E as [-> ->].
    + intros H. now apply (H [] []).
  - rewrite orb_false_iff, IH. split.
    + intros [H1 H2] [|b y] z E; cbn in E.
      * now subst.
      * injection E as -> ->. now apply (H2 y).
    + intros H. split; [now apply (H [])|]. intros y z ->. now apply (H (c :: y)).
Qed.

(** no proper suffix of the separator is a prefix of it *)
Definition unbordered (sep : list N) : Prop :=
  sep <> [] /\ forall y z, sep = y ++ z -> y <> [] -> z <> [] -> has_prefix z sep = false.

Lemma split_skip sep u : forall t cur, split_go sep (length u) cur (u ++ t) = split_go sep 0 cur t.
Proof.
  induction u as [|c u IH]; intros t cur; cbn [length app]; [reflexivity|]. cbn. apply IH.
Qed.
Lemma split_sep sep t cur :
  sep <> [] -> split_go sep 0 cur (sep ++ t) = rev cur :: split_go sep 0 [] t.
Proof.
  destruct sep as [|a sep']; [congruence|]. intros _.
  cbn [app split_go]. rewrite (has_prefix_app (a :: sep') t : has_prefix (a :: sep') (a :: sep' ++ t) = true).
  cbn [length pred]. f_equal. apply split_skip.
Qed.
Lemma split_part sep x : unbordered sep -> contains sep x = false ->
  forall t cur, split_go sep 0 cur (x ++ sep ++ t) = (rev cur ++ x) :: split_go sep 0 [] t.
Proof.
  intros [Hne Hu] Hc. rewrite contains_false in Hc.
  induction x as [|c x IH]; intros t cur.
  - cbn [app]. rewrite app_nil_r. now apply split_sep.
  - cbn [app split_go]. replace (has_prefix sep (c :: x ++ sep ++ t)) with false.
    + rewrite IH.
      * cbn [rev]. now rewrite <- app_assoc.
      * intros y z ->. now apply (Hc (c :: y)).
    + symmetry. destruct (has_prefix sep (c :: x ++ sep ++ t)) eqn:E; auto. exfalso.
      apply has_prefix_ex in E. destruct E as [u E].
      change (c :: x ++ sep ++ t) with ((c :: x) ++ sep ++ t) in E.
      apply (app_eq_app (c :: x) (sep ++ t) sep u) in E.
      destruct E as [z [[E1 E2]|[E1 E2]]].
      * specialize (Hc [] (c :: x) eq_refl). rewrite E1, has_prefix_app in Hc. discriminate.
      * destruct z as [|z0 z].
        { rewrite app_nil_r in E1. specialize (Hc [] (c :: x) eq_refl).
          rewrite <- E1 in Hc. pose proof (has_prefix_app sep []) as X. rewrite app_nil_r in X. congruence. }
        assert (Hz : has_prefix (z0 :: z) sep = false) by (apply (Hu (c :: x)); [exact E1|discriminate|discriminate]).
        symmetry in E2. apply (app_eq_app (z0 :: z) u sep t) in E2.
        destruct E2 as [q [[F1 F2]|[F1 F2]]].
        -- assert (length (z0 :: z) = length sep + length q) by (rewrite F1; apply app_length).
           assert (length sep = length (c :: x) + length (z0 :: z)) by (rewrite E1 at 1; apply app_length).
           cbn in *; lia.
        -- rewrite F1, has_prefix_app in Hz. discriminate.
Qed.
Lemma split_last sep x : sep <> [] -> contains sep x = false ->
  forall cur, split_go sep 0 cur x = [rev cur ++ x].
Proof.
  intros Hne Hc. rewrite contains_false in Hc.
  induction x as [|c x IH]; intros cur; cbn [split_go]; [now rewrite app_nil_r|].
  rewrite (Hc [] (c :: x) eq_refl). rewrite IH.
  - cbn [rev]. now rewrite <- app_assoc.
  - intros y z ->. now apply (Hc (c :: y)).
Qed.

Theorem split_join sep parts :
  unbordered sep -> parts <> [] -> Forall (fun p => contains sep p = false) parts ->
  split_str (join_str parts sep) sep = parts.
Proof.
  intros U Hne F. unfold split_str. induction parts as [|p parts IH]; [congruence|].
  inversion F as [|? ? Hp F']; subst. destruct parts as [|q parts].
  - cbn [join_str]. rewrite (split_last sep p); auto. apply U.
  - cbn [join_str]. rewrite (split_part sep p U Hp). cbn [rev app]. f_equal.
    apply IH; [discriminate|auto].
Qed.

Lemma split_go_ne sep s : forall k cur, split_go sep k cur s <> [].
Proof.
  induction s as [|b s IH]; intros [|k] cur; cbn; try discriminate; auto.
  destruct (has_prefix sep (b :: s)); [discriminate|apply IH].
Qed.
Lemma split_ne sep w : split_str w sep <> [].
Proof. apply split_go_ne. Qed.

Lemma split_inv sep s : sep <> [] -> forall cur,
  (forall y z, rev cur = y ++ z -> z <> [] -> has_prefix sep (z ++ s) = false) ->
  Forall (fun p => contains sep p = false) (split_go sep 0 cur s) /\
  join_str (split_go sep 0 cur s) sep = rev cur ++ s.
Proof.
  intros Hne. induction s as [s IH] using (well_founded_induction (Wf_nat.well_founded_ltof _ (@length N))).
  intros cur I. destruct s as [|b s].
  - cbn. rewrite app_nil_r. split; [|reflexivity]. constructor; [|constructor].
    apply contains_false. intros y z E. destruct z as [|z0 z].
    + destruct sep; [congruence|reflexivity].
    + rewrite <- (app_nil_r (z0 :: z)). apply (I y); [exact E|discriminate].
  - destruct (has_prefix sep (b :: s)) eqn:E.
    + apply has_prefix_ex in E. destruct E as [t E]. rewrite E in *. rewrite (split_sep sep t cur Hne).
      destruct (IH t) with (cur := @nil N) as [F J].
      { unfold Wf_nat.ltof. rewrite app_length. destruct sep; [congruence|cbn; lia]. }
      { intros y z X. symmetry in X. apply app_eq_nil in X. now destruct X as [_ ->]. }
      split.
      * constructor; auto. apply contains_false. intros y z Ez. destruct z as [|z0 z].
        { destruct sep; [congruence|reflexivity]. }
        apply has_prefix_false_app with (t := sep ++ t). apply (I y); [exact Ez|discriminate].
      * destruct (split_go sep 0 [] t) as [|q qs] eqn:Eq; [now apply split_go_ne in Eq|].
        cbn [join_str]. cbn [join_str rev app] in J. now rewrite J.
    + cbn [split_go]. rewrite E. destruct (IH s) with (cur := b :: cur) as [F J].
      { unfold Wf_nat.ltof. cbn. lia. }
      { cbn [rev]. intros y z X Hz. destruct z as [|zl z] using rev_ind; [congruence|].
        rewrite app_assoc in X. apply app_inj_tail in X. destruct X as [X ->].
        rewrite <- app_assoc. cbn [app]. destruct z as [|z0 z]; [exact E|].
        apply (I y); [exact X|discriminate]. }
      split; auto. rewrite J. cbn [rev]. now rewrite <- app_assoc.
Qed.
Theorem join_split sep w : sep <> [] ->
  Forall (fun p => contains sep p = false) (split_str w sep) /\ join_str (split_str w sep) sep = w.
Proof.
  intros H. destruct (split_inv sep w H []) as [F J]; auto.
  intros y z X. symmetry in X. apply app_eq_nil in X. now destruct X as [_ ->].
Qed.

(** the encoding of a rune never overlaps with itself *)
Lemma enc1_shape d : exists b t, enc1 d = b :: t /\ is_cont b = false /\ Forall (fun c => is_cont c = true) t.
Proof.
  unfold enc1. assert (G : forall r, is_scalar r = true -> exists b t, enc1_valid r = b :: t /\ is_cont b = false /\
     Forall (fun c => is_cont c = true) t).
  { intros r Hr. unfold enc1_valid, is_scalar in *.
    assert (r < 1114112)%N as Hlt.
    { apply orb_true_iff in Hr. destruct Hr as [Hr|Hr].
      - apply N.ltb_lt in Hr. lia.
      - apply andb_true_iff in Hr. destruct Hr as [_ Hr]. apply N.leb_le in Hr. lia. }
    assert (C : forall x, is_cont (128 + x mod 64) = true).
    { intros x. unfold is_cont. pose proof (N.mod_lt x 64 ltac:(lia)). apply andb_true_iff.
      split; apply N.leb_le; lia. }
    destruct (N.ltb_spec r 128); [|destruct (N.ltb_spec r 2048); [|destruct (N.ltb_spec r 65536)]];
      eexists; eexists; (split; [reflexivity|]); (split; [|repeat constructor; apply C]);
      unfold is_cont; apply andb_false_iff.
    - left. apply N.leb_gt. lia.
    - right. apply N.leb_gt. lia.
    - right. apply N.leb_gt. lia.
    - right. apply N.leb_gt. lia. }
  destruct (is_scalar d) eqn:E; apply G; auto.
Qed.
Lemma enc1_unbordered d : unbordered (enc1 d).
Proof.
  destruct (enc1_shape d) as (b & t & -> & Hb & Ht). split; [discriminate|].
  intros y z E Hy Hz. destruct y as [|y0 y]; [congruence|]. injection E as _ E.
  destruct z as [|c z]; [congruence|]. cbn [has_prefix].
  assert (is_cont c = true).
  { rewrite Forall_forall in Ht. apply Ht. rewrite E. apply in_or_app. right. now left. }
  replace (c =? b)%N with false; auto. symmetry. apply N.eqb_neq. congruence.
Qed.

(** the candidates, one step at a time *)
Definition ups_of (segs : list (list N)) : list (list (list N)) :=
  map (fun i => firstn i segs ++ [last segs []]) (rev (seq 1 (length segs - 2))).
Lemma last_app1 {A} (l : list A) x y : last (l ++ [x]) y = x.
Proof. induction l as [|a l IH]; cbn; auto. destruct (l ++ [x]) eqn:E; auto. now apply app_eq_nil in E. Qed.
Lemma ups_short segs : length segs <= 2 -> ups_of segs = [].
Proof. intros H. unfold ups_of. now replace (length segs - 2) with 0 by lia. Qed.
Lemma ups_step segs : 2 < length segs ->
  let a' := firstn (length segs - 2) segs ++ skipn (length segs - 1) segs in
  ups_of segs = a' :: ups_of a' /\ length a' = pred (length segs) /\ a' <> [] /\
  (forall P, Forall P segs -> Forall P a').
Proof.
  intros H a'. assert (Ea : skipn (length segs - 1) segs = [last segs []]).
  { destruct segs as [|x segs] using rev_ind; [cbn in H; lia|]. rewrite app_length. cbn [length].
    replace (length segs + 1 - 1) with (length segs) by lia.
    rewrite skipn_app, skipn_all, Nat.sub_diag. cbn. now rewrite last_app1. }
  assert (La : length a' = pred (length segs)).
  { unfold a'. rewrite Ea, app_length, firstn_length. cbn. lia. }
  split; [|split; [|split]]; auto.
  - unfold ups_of. rewrite La. replace (length segs - 2) with (S (pred (length segs) - 2)) by lia.
    rewrite seq_S, rev_app_distr. cbn [rev app map].
    f_equal.
    + unfold a'. rewrite Ea. f_equal. f_equal. lia.
    + apply map_ext_in. intros i Hi. rewrite <- in_rev, in_seq in Hi.
      f_equal.
      * unfold a'. rewrite firstn_app, firstn_firstn, firstn_length.
        replace (i - Nat.min (length segs - 2) (length segs)) with 0 by lia. cbn [firstn].
        rewrite app_nil_r. f_equal. lia.
      * unfold a'. now rewrite Ea, last_app1.
  - destruct a'; [cbn in La; lia|discriminate].
  - intros P F. unfold a'. apply Forall_app. rewrite Forall_forall in F.
    split; apply Forall_forall; intros x Hx; apply F.
    + rewrite <- (firstn_skipn (length segs - 2) segs). apply in_or_app. now left.
    + rewrite <- (firstn_skipn (length segs - 1) segs). apply in_or_app. now right.
Qed.
Lemma split_length sep s : sep <> [] -> forall cur, length (split_go sep 0 cur s) <= S (length s).
Proof.
  intros Hne. induction s as [s IH] using (well_founded_induction (Wf_nat.well_founded_ltof _ (@length N))).
  intros cur. destruct s as [|b s]; [cbn; lia|]. destruct (has_prefix sep (b :: s)) eqn:E.
  - apply has_prefix_ex in E. destruct E as [t E]. rewrite E, (split_sep sep t cur Hne).
    assert (length t < length (sep ++ t)) by (rewrite app_length; destruct sep; [congruence|cbn; lia]).
    cbn [length]. specialize (IH t). unfold Wf_nat.ltof in IH. rewrite E in IH. specialize (IH H []). lia.
  - cbn [split_go]. rewrite E. specialize (IH s). unfold Wf_nat.ltof in IH. cbn [length] in *.
    specialize (IH ltac:(lia) (b :: cur)). lia.
Qed.
