(** GetM(path) through a handle with a prefix (cvter.go:411-484, 632-673): which keys it exports and where they land. *)
From Coq Require Import List NArith Bool Arith Lia.
From Verif Require Import GoStr Utf8 Node NodeWf InsertProofs MatchProofs Trie TreeOps Spec Refine
  Climb ApiRefine Reach Effect Derived Derived2 Derived3 Derived4 Dur Cvter Nested CvterProofs Export.
Import ListNotations.
Open Scope nat_scope.
Open Scope list_scope.

Lemma ascii_enc d : (d < 128)%N -> enc1 d = [d].
Proof.
  intros H. unfold enc1, enc1_valid, is_scalar. destruct (N.ltb_spec d 0x80); [|lia]. destruct (N.ltb_spec d 0xD800); [reflexivity|lia].
Qed.
Lemma ascii_byte d : (d < 128)%N -> delim_byte d = d.
Proof. intros H. unfold delim_byte. rewrite N.mod_small; [reflexivity|lia]. Qed.
Lemma getM_list_in D rf order h t path o fa k1 a1 (p := Join (hdelim h) [hprefix h; path]) :
  plain_reach D t -> vreach t -> D (hdelim h) -> filter_by o fa -> ~ root_name path ->
  hprefix h <> [] -> (hdelim h < 128)%N -> o_keep o = false -> is_scalar (hdelim h) = true -> valid_utf8 p = true ->
  (* something is stored below p *)
  t_get t k1 = Some a1 -> prefix (runes p ++ [hdelim h]) k1 ->
  (* whatever begins with p is below it *)
  (forall s v a, exports (hdelim h) t s v a -> fa s a = true -> prefix (runes p) (runes s) ->
     prefix (runes p ++ [hdelim h]) (runes s)) ->
  exists l, (forall rest v, In (rest, v) l <-> relative (hdelim h) t fa p rest v) /\
    GetM (S rf) order h t path o = Ok (finish order (hdelim h) o
      (puts (map (fun e => (strip (split_str p (enc1 (hdelim h)))
         (split_str (fst e) (enc1 (hdelim h))), snd e)) l) [])).
Proof.
  rewrite <- (root_name_false path).
  intros R V Hd FO E Hp D0 K Sd Vp G1 P1 Cl. set (d := hdelim h) in *.
  assert (Pe : p = hprefix h ++ enc1 d ++ path) by (unfold p; rewrite join_spec, (ascii_enc _ D0), (ascii_byte _ D0); destruct (hprefix h); [congruence|]; destruct path; [discriminate|]; reflexivity).
  assert (D1 : length (enc1 d) = 1) by (rewrite (ascii_enc d D0); reflexivity).
  assert (Hne : p <> []) by (rewrite Pe; destruct (hprefix h); [congruence|discriminate]).
  assert (Hw : runes p <> []) by (intros X; apply Hne; now apply runes_nil_iff).
  pose proof (reached_wf t (vreach_reached t V)) as WT.
  pose proof (getM_path D rf order h t path o R Hd (proj1 (root_name_false path) E)) as H. fold d in H.
  assert (Ef : full h path = p) by (unfold full; destruct (hprefix h); [congruence|reflexivity]).
  destruct (probe_section d t (runes p) k1 WT) as (k0 & Pr & Pw & Pk); auto; [congruence|now apply prefix_app in P1|].
  assert (Sr : s_search d (is_up h) (entries t) (full h path) = SFound k0 \/
               (k0 <> [] /\ s_search d (is_up h) (entries t) (full h path) = SPart k0)).
  { unfold s_search. cbn [s_first]. rewrite Ef. destruct Pr as [->|[X ->]]; auto. }
  assert (H' : exists n, In (k0, n) (ents [] (root t)) /\
    let pre := split_str (Join d [hprefix h; path]) (enc1 d) in
    let pl := getM_prelen h path in
    GetM (S rf) order h t path o =
    Ok (finish order d o
          (puts (map (fun n => (place d o pre pl n, ndata n)) (filter (placed d o pl) (walk n))) []))).
  { destruct Sr as [Sr|[Hk Sr]]; rewrite Sr in H; auto. destruct k0; [congruence|auto]. }
  clear H. destruct H' as (n & Hn & H). cbn zeta in H.
  assert (Ej : Join d [hprefix h; path] = p) by reflexivity.
  assert (El : getM_prelen h path = length p) by (rewrite Pe, !app_length, D1; unfold getM_prelen; destruct (hprefix h); [congruence|]; cbn [is_nil length]; lia).
  rewrite Ej, El in H.
  (* every chosen leaf of the subtree is p d rest *)
  assert (Sec : forall s v, section d t fa k0 s v <-> exists rest, s = p ++ enc1 d ++ rest /\ relative d t fa p rest v).
  { intros s v. split.
    - intros (a & X & Y & Z).
      assert (Z2 : prefix (runes p ++ [d]) (runes s)) by (apply (Cl s v a X Y); eapply prefix_trans; eauto).
      destruct Z2 as [y Z2]. pose proof (proj1 X) as Vs. apply valid_utf8_eq in Vs.
      exists (of_runes y). assert (Es : s = p ++ enc1 d ++ of_runes y).
      { rewrite <- Vs, Z2, !of_runes_app. cbn [of_runes flat_map]. rewrite app_nil_r, <- app_assoc.
        f_equal. now apply valid_utf8_eq. }
      split; auto. exists a. rewrite <- Es. auto.
    - intros (rest & -> & a & X & Y). exists a. split; auto. split; auto.
      rewrite !runes_valid_app by (auto; now apply enc1_valid_utf8).
      rewrite (proj2 (enc1_valid_utf8 d Sd)), app_assoc. destruct Pk as [->|Pk]; [apply prefix_app_r|].
      rewrite <- app_assoc. cbn [app].
      assert (Er : runes (p ++ enc1 d ++ rest) = runes p ++ d :: runes rest).
      { rewrite !runes_valid_app by (auto; now apply enc1_valid_utf8). now rewrite (proj2 (enc1_valid_utf8 d Sd)). }
      rewrite <- Er. apply Pk; [|rewrite Er; apply prefix_app_r]. destruct X as (_ & _ & X & _). congruence. }
  pose proof (leaves_in d t o fa V FO k0 n Hn) as LI.
  assert (Ln : forall x, In x (leaves d o n) -> exists rest, key x = p ++ enc1 d ++ rest /\ relative d t fa p rest (ndata x)).
  { intros x Hx. apply Sec, LI. apply in_map_iff. exists x. auto. }
  assert (Lp : 0 < length p) by (destruct p; [congruence|cbn; lia]).
  assert (Ld : 0 < length (enc1 d)) by (destruct (enc1_shape d) as (b & z & -> & _); cbn; lia).
  (* the subtree's list, cut at p *)
  set (tail_of := fun x => (skipn (length p + length (enc1 d)) (key x), ndata x)).
  assert (EQ : map (fun x => (place d o (split_str p (enc1 d)) (length p) x, ndata x))
                   (filter (placed d o (length p)) (walk n)) =
               map (fun e => (strip (split_str p (enc1 d)) (split_str (fst e) (enc1 d)), snd e))
                   (map tail_of (leaves d o n))).
  { assert (F : filter (placed d o (length p)) (walk n) = leaves d o n).
    { unfold leaves. apply filter_ext_in. intros x Hx. unfold placed. destruct (chosen d o x) eqn:C; auto.
      destruct (Ln x) as (rest & Kx & _); [apply filter_In; auto|]. rewrite Kx, !app_length.
      rewrite K. cbn. apply Nat.ltb_lt. lia. }
    rewrite F, map_map. apply map_ext_in. intros x Hx. destruct (Ln x Hx) as (rest & Kx & Rx).
    unfold place, tail_of. rewrite K, Kx, !app_length. cbn [fst snd].
    assert (Hr : 0 < length rest).
    { destruct rest; [|cbn; lia]. destruct Rx as (a & (_ & X & _) & _). rewrite app_nil_r, runes_valid_app, (proj2 (enc1_valid_utf8 d Sd)) in X by exact Vp.
      unfold ends_with in X. rewrite rev_app_distr in X. cbn in X. rewrite N.eqb_refl in X. discriminate. }
    destruct (Nat.eqb_spec (length p + 1) (length p + (length (enc1 d) + length rest))) as [X|X]; [lia|].
    now rewrite D1. }
  rewrite EQ in H. exists (map tail_of (leaves d o n)). split; [|exact H]. clear H.
  assert (TI : forall rest v, In (rest, v) (map tail_of (leaves d o n)) <-> relative d t fa p rest v).
  { intros rest v. rewrite in_map_iff. split.
    - intros (x & Ex & Hx). destruct (Ln x Hx) as (r & Kx & Rx). unfold tail_of in Ex. rewrite Kx in Ex.
      inversion Ex as [[E1 E2]]. rewrite app_assoc, <- app_length, skipn_app, skipn_all, Nat.sub_diag. exact Rx.
    - intros Rx. assert (Sx : section d t fa k0 (p ++ enc1 d ++ rest) v) by (apply Sec; eauto).
      apply LI in Sx. apply in_map_iff in Sx. destruct Sx as (x & Ex & Hx). exists x. split; auto.
      unfold kv_of in Ex. inversion Ex as [[E1 E2]]. unfold tail_of.
      now rewrite E1, app_assoc, <- app_length, skipn_app, skipn_all, Nat.sub_diag. }
  exact TI.
Qed.

(** where the value of the key prefix+path+rest lands, when the prefix and the path have [n] segments and [ss] are those of the rest: the code
    drops the first [n] segments of what it has already cut, unless nothing would be left or there are fewer *)
Definition landing_in (n : nat) (ss : segs) : segs :=
  if n <? length ss then skipn n ss else if n =? length ss then [last ss []] else ss.
Definition landed_by (f : segs -> segs) (d : rune) (E : gostring -> gval -> Prop) (m : gmap) : Prop :=
  let at_ s := f (split_str s (enc1 d)) in
  forall q, q <> [] ->
    (forall v, is_map v = false -> nget (GMap m) q = Some v ->
       (exists s, E s v /\ q = at_ s) /\ forall s' v', E s' v' -> ~ below (at_ s') q) /\
    (forall s v, E s v -> q = at_ s -> (forall s' v', E s' v' -> ~ below (at_ s') q) ->
       exists s' v', E s' v' /\ q = at_ s' /\ nget (GMap m) q = Some v') /\
    ((exists m', nget (GMap m) q = Some (GMap m')) <->
       (exists s v, E s v /\ below q (at_ s)) /\ forall s v, E s v -> ~ begins (at_ s) q).
Lemma skip_last {A} (x : A) l : l <> [] -> skipn (length l - 1) l = [last l x].
Proof.
  induction l as [|a [|b l] IH]; intros H; [congruence|reflexivity|]. cbn [length]. replace (S (S (length l)) - 1) with (S (length (b :: l) - 1)) by (cbn; lia).
  cbn [skipn]. rewrite IH by discriminate. reflexivity.
Qed.
Lemma strip_in (pre ss : segs) : ss <> [] -> strip pre ss = landing_in (length pre) ss.
Proof.
  intros Hs. unfold strip, landing_in. cbv zeta. destruct (Nat.leb_spec (length pre) (length ss)) as [L|L].
  - destruct (Nat.ltb_spec (length pre) (length ss)) as [L2|L2].
    + destruct (skipn (length pre) ss) eqn:E; [|reflexivity]. assert (X : length (skipn (length pre) ss) = 0) by now rewrite E. rewrite skipn_length in X. lia.
    + assert (E : length pre = length ss) by lia. rewrite E, Nat.eqb_refl, skipn_all. cbn [is_nil]. now apply skip_last.
  - destruct (Nat.ltb_spec (length pre) (length ss)); [lia|]. destruct (Nat.eqb_spec (length pre) (length ss)); [lia|reflexivity].
Qed.
Lemma landing_in_few n ss : length ss < n -> landing_in n ss = ss.
Proof. intros H. unfold landing_in. destruct (Nat.ltb_spec n (length ss)); [lia|]. destruct (Nat.eqb_spec n (length ss)); [lia|reflexivity]. Qed.
Lemma landing_in_ne n ss : ss <> [] -> landing_in n ss <> [].
Proof.
  intros Hs. unfold landing_in. destruct (Nat.ltb_spec n (length ss)).
  - intros E. assert (X : length (skipn n ss) = 0) by now rewrite E. rewrite skipn_length in X. lia.
  - destruct (n =? length ss); [discriminate|auto].
Qed.
Lemma puts_landed_by (f : segs -> segs) d (E : gostring -> gval -> Prop) (l : list (gostring * gval)) :
  (forall ss, ss <> [] -> f ss <> []) -> (forall s v, In (s, v) l <-> E s v) -> (forall s v, E s v -> is_map v = false) ->
  landed_by f d E (puts (map (fun e => (f (split_str (fst e) (enc1 d)), snd e)) l) []).
Proof.
  intros Hn HI Sc q Hq. cbv zeta.
  set (L := map (fun e => (f (split_str (fst e) (enc1 d)), snd e)) l).
  assert (LI : forall p v, In (p, v) L <-> exists s, E s v /\ p = f (split_str s (enc1 d))).
  { intros p v. unfold L. rewrite in_map_iff. split.
    - intros ([s w] & X & Y). cbn in X. injection X as X1 X2. subst w p. exists s. split; [now apply HI|reflexivity].
    - intros (s & X & ->). exists (s, v). split; [reflexivity|now apply HI]. }
  assert (LK : forall p, In p (map fst L) <-> exists s v, E s v /\ p = f (split_str s (enc1 d))).
  { intros p. rewrite in_map_iff. split.
    - intros ([p' v] & X & Y). cbn in X. subst p'. apply LI in Y. destruct Y as (s & Y1 & Y2). eauto.
    - intros (s & v & X & Y). exists (p, v). split; [reflexivity|]. apply LI. eauto. }
  assert (OK : Forall (fun e => fst e <> [] /\ is_map (snd e) = false) L).
  { apply Forall_forall. intros [p v] X. apply LI in X. destruct X as (s & X & ->). cbn [fst snd]. split; [|eauto].
    apply Hn. apply split_ne. }
  destruct (puts_spec _ OK q Hq) as [S1 S2]. split; [|split].
  - intros v Hv G. apply (S1 v Hv) in G. destruct G as [G1 G2]. apply last_of_in in G1. apply LI in G1. split; [exact G1|].
    intros s' v' X B. apply G2. exists (f (split_str s' (enc1 d))). split; auto. apply LK. eauto.
  - intros s v X -> Sh. destruct (last_of_some L (f (split_str s (enc1 d)))) as [w W]; [apply LK; eauto|].
    pose proof (last_of_in _ _ _ W) as Wi. apply LI in Wi. destruct Wi as (s' & X' & Y'). exists s', w. split; auto. split; auto.
    apply (S1 w); [eauto|]. split; auto. intros (p & Hp & B). apply LK in Hp. destruct Hp as (s2 & v2 & X2 & ->). eapply Sh; eauto.
  - rewrite S2. split.
    + intros ((p & Hp & B) & H1 & H2). apply LK in Hp. destruct Hp as (s & v & H & ->).
      split; [eauto|]. intros s' v' H' Bg. destruct (begins_cases _ _ Bg) as [Eq|B'].
      * apply H1. apply LK. eauto.
      * apply H2. exists (f (split_str s' (enc1 d))). split; auto. apply LK. eauto.
    + intros ((s & v & H & B) & H1). split; [exists (f (split_str s (enc1 d))); split; auto; apply LK; eauto|].
      split.
      * intros Hin. apply LK in Hin. destruct Hin as (s' & v' & H' & Eq). apply (H1 s' v' H'). exists []. now rewrite app_nil_r.
      * intros (p & Hp & B'). apply LK in Hp. destruct Hp as (s' & v' & H' & ->). apply (H1 s' v' H'). now apply below_begins.
Qed.


Theorem getM_in_any D rf order h t path o fa k1 a1 (p := Join (hdelim h) [hprefix h; path]) :
  plain_reach D t -> vreach t -> D (hdelim h) -> filter_by o fa -> ~ root_name path ->
  hprefix h <> [] -> (hdelim h < 128)%N -> o_keep o = false -> is_scalar (hdelim h) = true -> valid_utf8 p = true ->
  t_get t k1 = Some a1 -> prefix (runes p ++ [hdelim h]) k1 ->
  (forall s v a, exports (hdelim h) t s v a -> fa s a = true -> prefix (runes p) (runes s) ->
     prefix (runes p ++ [hdelim h]) (runes s)) ->
  (forall rest v, relative (hdelim h) t fa p rest v -> is_map v = false) ->
  exists m, landed_by (landing_in (length (split_str p (enc1 (hdelim h))))) (hdelim h) (relative (hdelim h) t fa p) m /\
    GetM (S rf) order h t path o = Ok (finish order (hdelim h) o m).
Proof.
  intros R V Hd FO E Hp D1 K Sd Vp G1 P1 Cl Sc.
  destruct (getM_list_in D rf order h t path o fa k1 a1 R V Hd FO E Hp D1 K Sd Vp G1 P1 Cl) as (l & Hl & G).
  eexists. split; [|exact G]. fold p.
  rewrite (map_ext _ (fun e => (landing_in (length (split_str p (enc1 (hdelim h)))) (split_str (fst e) (enc1 (hdelim h))), snd e))).
  - apply (puts_landed_by (landing_in (length (split_str p (enc1 (hdelim h)))))); auto. intros ss. apply landing_in_ne.
  - intros [r v]. cbn [fst snd]. rewrite strip_in; auto. apply split_ne.
Qed.
(** the map relative to the path, when every key has fewer segments below it than the prefix and the path have together *)
Theorem getM_in_rel D rf order h t path o fa k1 a1 (p := Join (hdelim h) [hprefix h; path]) :
  plain_reach D t -> vreach t -> D (hdelim h) -> filter_by o fa -> ~ root_name path ->
  hprefix h <> [] -> (hdelim h < 128)%N -> o_keep o = false -> is_scalar (hdelim h) = true -> valid_utf8 p = true ->
  t_get t k1 = Some a1 -> prefix (runes p ++ [hdelim h]) k1 ->
  (forall s v a, exports (hdelim h) t s v a -> fa s a = true -> prefix (runes p) (runes s) ->
     prefix (runes p ++ [hdelim h]) (runes s)) ->
  (forall rest v, relative (hdelim h) t fa p rest v -> is_map v = false /\
     length (split_str rest (enc1 (hdelim h))) < length (split_str p (enc1 (hdelim h)))) ->
  exists m, nested_of (hdelim h) (relative (hdelim h) t fa p) m /\
    GetM (S rf) order h t path o = Ok (finish order (hdelim h) o m).
Proof.
  intros R V Hd FO E Hp D1 K Sd Vp G1 P1 Cl Sc.
  destruct (getM_list_in D rf order h t path o fa k1 a1 R V Hd FO E Hp D1 K Sd Vp G1 P1 Cl) as (l & Hl & G).
  eexists. split; [|exact G]. fold p.
  rewrite (map_ext_in _ (cut_key (hdelim h))).
  2:{ intros [r v] X. apply Hl in X. destruct (Sc r v X) as [_ Y]. unfold cut_key. cbn [fst snd]. rewrite strip_in by apply split_ne. f_equal. apply landing_in_few. exact Y. }
  apply (nested_ext _ (fun s v => In (s, v) l)); auto. apply puts_nested.
  - intros r v1 v2 H1 H2. apply Hl in H1, H2. destruct H1 as (b1 & (_ & _ & B1 & _ & B2) & _), H2 as (b2 & (_ & _ & C1 & _ & C2) & _).
    congruence.
  - intros s v X. apply Hl in X. now apply Sc in X.
Qed.
