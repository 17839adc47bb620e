(** Sizes whose number is followed by any run of unit letters, Z and Y included. *)
From Coq Require Import String.
From Coq Require Import List NArith Bool Arith Lia.
From Verif Require Import GoStr Utf8 Node Trie Dur Cvter SizeProofs SizeLit.
Import ListNotations.
Open Scope N_scope.
Open Scope list_scope.

(** the letters that stand for a unit, and the power of the unit they are taken for *)
Definition letter (c : N) : bool := mem c (s2b "kKmMgGtTpPeEzZyY"%string).
Definition taken_for (c : N) : N := match power c with Some k => k | None => 0 end.
Lemma letter_facts unit c : letter c = true ->
  solid c /\ mem c suffixes = true /\ mem c (s2b "iBib"%string) = false /\ mem c (s2b "Bb"%string) = false /\ sizeTimes unit c = unit ^ taken_for c.
Proof.
  intros H. assert (X : sizeTimes unit c = unit ^ taken_for c).
  { unfold taken_for. destruct (power c) as [k|] eqn:E; [now apply power_times|].
    unfold letter, mem in H. apply existsb_exists in H. destruct H as (x & I & H). apply N.eqb_eq in H. subst x.
    cbn in I. repeat (destruct I as [<-|I]; [vm_compute in E; try discriminate E; now rewrite N.pow_0_r|]). destruct I. }
  unfold letter, mem in H. apply existsb_exists in H. destruct H as (x & I & H). apply N.eqb_eq in H. subst x.
  cbn in I. repeat (destruct I as [<-|I]; [split; [split; [lia|reflexivity]|split; [reflexivity|split; [reflexivity|split; [reflexivity|exact X]]]]|]).
  destruct I.
Qed.

Section Bytes.
Variable PF : gostring -> option f64.
Variables (unit : N) (cut1 cut2 : gostring).
Hypothesis C0 : forall c, letter c = true -> mem c (cut1 ++ cut2) = false.
Hypothesis Csolid : Forall solid (cut1 ++ cut2).
Lemma run_core lead s b t mid u x y trail :
  literal s b t -> Forall (fun c => blank c = true) lead -> Forall (fun c => blank c = true) trail -> Forall (fun c => blank c = true) mid ->
  u <> [] -> Forall (fun c => letter c = true) u -> (mid <> [] \/ mem (last t 0) (s2b "eE"%string) = false) ->
  Forall (fun c => mem c cut2 = true) x -> Forall (fun c => mem c cut1 = true) y ->
  fromBytes PF unit cut1 cut2 (lead ++ (s ++ mid ++ u ++ x ++ y) ++ trail) = Ok (outcome_of (reading b t) (unit ^ taken_for (last u 0))).
Proof.
  intros Lit Fl Ft Fm Hu Fu Hm Fx Fy. destruct (literal_shape _ _ _ Lit) as (Hn & Els & D16 & Fs). unfold fromBytes.
  destruct (digit_solid16 _ D16) as (L1 & L2 & L3 & L4 & _).
  assert (Sh : solid (hd 0 s)) by (destruct s; [congruence|]; now inversion Fs as [|? ? [X _]]).
  destruct (exists_last Hu) as (u0 & c & Eu).
  assert (Hc1 : letter c = true) by (rewrite Forall_forall in Fu; apply Fu; rewrite Eu; apply in_or_app; right; now left).
  destruct (letter_facts unit c Hc1) as (S1 & S2 & _ & _ & S3).
  assert (Lu : last u 0 = c) by (rewrite Eu; apply last_last). rewrite Lu.
  set (core := s ++ mid ++ u).
  assert (Hc : core <> []) by (unfold core; destruct s; [congruence|discriminate]).
  assert (Ec : core = (s ++ mid ++ u0) ++ [c]) by (unfold core; rewrite Eu; now rewrite <- !app_assoc).
  assert (Lc1 : solid (last core 0)) by (rewrite Ec, last_last; exact S1).
  assert (Lc2 : mem (last core 0) (cut1 ++ cut2) = false) by (rewrite Ec, last_last; auto).
  rewrite mem_cut, orb_false_iff in Lc2.
  replace (s ++ mid ++ u ++ x ++ y) with (core ++ x ++ y) by (unfold core; now rewrite <- !app_assoc).
  assert (Sxy : Forall solid (x ++ y)).
  { apply Forall_forall. intros z H. rewrite Forall_forall in Csolid. apply Csolid. apply in_app_iff in H. apply in_app_iff.
    rewrite Forall_forall in Fx, Fy. destruct H as [H|H]; [apply Fx in H|apply Fy in H]; unfold mem in H;
      apply existsb_exists in H; destruct H as (z' & Hz & E); apply N.eqb_eq in E; subst; auto. }
  rewrite trim_space; auto.
  2:{ destruct core; [congruence|discriminate]. }
  2:{ unfold core. destruct s; [congruence|]. exact Sh. }
  2:{ destruct (x ++ y) as [|z l] eqn:E; [now rewrite app_nil_r|].
      assert (Hin : In (last (core ++ z :: l) 0) (z :: l)).
      { destruct (exists_last (l := z :: l)) as (b' & e & Eb); [discriminate|]. rewrite Eb, app_assoc, last_last.
        apply in_or_app. right. now left. }
      rewrite Forall_forall in Sxy. auto. }
  rewrite trim_right_two by tauto.
  assert (T : TrimRight core suffixes = s ++ mid).
  { unfold core. rewrite app_assoc. apply trim_right.
    - destruct s; [congruence|discriminate].
    - destruct mid as [|m0 mid]; [rewrite app_nil_r, Els; apply L3; destruct Hm as [NM|NE]; [congruence|exact NE]|].
      destruct (exists_last (l := m0 :: mid)) as (b' & e & Eb); [discriminate|]. rewrite Eb, app_assoc, last_last.
      apply blank_suffix. rewrite Forall_forall in Fm. apply Fm. rewrite Eb. apply in_or_app. right. now left.
    - eapply Forall_impl; [|exact Fu]. cbn. intros z Hz. now apply (letter_facts unit z). }
  rewrite T.
  assert (T2 : TrimSpace (s ++ mid) = s) by (apply (trim_space [] s mid); auto; now rewrite Els).
  rewrite T2.
  assert (ND : mem 46 s = false).
  { unfold mem. apply not_true_iff_false. rewrite existsb_exists. intros (z & Hz & E). apply N.eqb_eq in E. subst z. rewrite Forall_forall in Fs. destruct (Fs 46 Hz) as [_ X]. discriminate. }
  rewrite ND, (parse_literal _ _ _ Lit). unfold outcome_of. destruct (reading b t <=? maxu64); [|reflexivity].
  assert (Ad : ascii s = true) by (apply solid_ascii; eapply Forall_impl; [|exact Fs]; cbn; tauto).
  assert (Au : ascii u = true) by (apply solid_ascii; eapply Forall_impl; [|exact Fu]; cbn; intros z Hz; now apply (letter_facts unit z)).
  assert (Ac : ascii core = true) by (unfold core; now rewrite !ascii_app, Ad, (blank_ascii mid Fm), Au).
  rewrite Ec in *. rewrite ascii_last_rune by assumption. cbn [bind]. now rewrite S3.
Qed.
End Bytes.
Theorem kibi_run PF lead s b t mid u x y trail : literal s b t -> u <> [] -> Forall (fun c => letter c = true) u ->
  (mid <> [] \/ mem (last t 0) (s2b "eE"%string) = false) ->
  Forall (fun c => blank c = true) (lead ++ mid ++ trail) ->
  Forall (fun b => mem b (s2b "ib"%string) = true) x -> Forall (fun b => mem b (s2b "iB"%string) = true) y ->
  FromKibiBytes PF (lead ++ (s ++ mid ++ u ++ x ++ y) ++ trail) = Ok (outcome_of (reading b t) (1024 ^ taken_for (last u 0))).
Proof.
  intros L Hu Fu Hm Fb Fx Fy. apply Forall_app in Fb. destruct Fb as [F1 Fb]. apply Forall_app in Fb. destruct Fb as [F2 F3].
  unfold FromKibiBytes. apply run_core; auto.
  - intros c H. now apply (letter_facts 0 c).
  - cbn. repeat constructor.
Qed.
Theorem kilo_run PF lead s b t mid u x y trail : literal s b t -> u <> [] -> Forall (fun c => letter c = true) u ->
  (mid <> [] \/ mem (last t 0) (s2b "eE"%string) = false) ->
  Forall (fun c => blank c = true) (lead ++ mid ++ trail) ->
  Forall (fun b => mem b (s2b "b"%string) = true) x -> Forall (fun b => mem b (s2b "B"%string) = true) y ->
  FromKiloBytes PF (lead ++ (s ++ mid ++ u ++ x ++ y) ++ trail) = Ok (outcome_of (reading b t) (1000 ^ taken_for (last u 0))).
Proof.
  intros L Hu Fu Hm Fb Fx Fy. apply Forall_app in Fb. destruct Fb as [F1 Fb]. apply Forall_app in Fb. destruct Fb as [F2 F3].
  unfold FromKiloBytes. apply run_core; auto.
  - intros c H. now apply (letter_facts 0 c).
  - cbn. repeat constructor.
Qed.
