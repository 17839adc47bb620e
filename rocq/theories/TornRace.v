(** Gets and overwriting Sets whose accesses to values are split into words. *)
From Coq Require Import List NArith ZArith Bool Arith Lia.
From Verif Require Import GoStr Utf8 Node NodeWf InsertProofs MatchProofs Trie TreeOps Spec Refine Climb ApiRefine Reach Effect
  Derived Derived2 Derived3 Derived4 Derived5 Heap HeapProofs HeapWalk HeapRace HeapGet HeapGetProofs Torn TornProofs.
Import ListNotations.
Open Scope nat_scope.

Lemma heq_repr h h' n : heq h h' -> repr h n -> repr h' n.
Proof.
  intros (A & B & _) RR. apply (repr_frame h h' (fun _ => False)); [|exact RR|auto].
  intros a s E _. rewrite <- A. split; [exact E|]. unfold kids_of. now rewrite B.
Qed.

Section Race.
Variable T : Type.
Variable tyv : gval -> T.
Variable retype : gval -> gval -> gval.
Hypothesis retype_ty : forall v w, tyv v = tyv w -> retype v w = w.

Lemma words_ty m n : any_types tyv m = any_types tyv n -> any_words retype m n = n.
Proof. intros E. injection E as E1 E2. unfold any_words. rewrite !retype_ty by assumption. now destruct n. Qed.
Lemma respects_data v : respects (T * T) (any_types tyv) (w_data v).
Proof. intros m n E. injection E as E1 E2. unfold any_types. cbn. congruence. Qed.

Lemma civil_steady {A} h0 may Qs (ps : list (prog A)) : civil h0 may Qs ps h0 ->
  (forall a v s, may a v -> hn h0 a = Some s -> tyv v = tyv (hdata s)) -> steady (T * T) (any_types tyv) ps h0.
Proof.
  intros C Y sch i a n n'. pose proof (schedule_civil h0 may sch Qs ps h0 C) as C1. destruct (schedule sch ps h0) as [qs g]. cbn [fst snd] in C1.
  pose proof (turn_civil h0 may Qs qs g i C1) as C2. destruct C1 as [S1 _]. destruct C2 as [S2 _]. intros E1 E2.
  assert (X : forall h t, state h0 may h -> hn h a = Some t -> exists s, hn h0 a = Some s /\ any_types tyv t = any_types tyv s).
  { intros h t S E. destruct (hn h0 a) as [s|] eqn:Es.
    - destruct (st_node h0 may h S a s Es) as (t' & Et & (_ & _ & _ & _ & _ & TG & _) & D). assert (t' = t) as -> by congruence.
      exists s. split; auto. unfold any_types. rewrite TG. f_equal. destruct D as [->|D]; auto. eapply Y; eauto.
    - rewrite (st_none h0 may h S a Es) in E. discriminate. }
  destruct (X g n S1 E1) as (s & Es & ->). destruct (X _ n' S2 E2) as (s' & Es' & ->). congruence.
Qed.

Section Jobs.
Variable grow : nat -> nat.
Variable rf : nat.
(** the programs of race_get are polite *)
Lemma race_civil h0 R nx jobs gets dep : tree_in h0 R -> depth R <= dep ->
  (forall job k v, In job jobs -> In (k, v) job -> exists a, key_at R k a) ->
  (forall h p, In (h, p) gets -> exists r, search rf h (Tr R nx) (full h p) = Ok r) ->
  exists Qs, civil h0 (some_set jobs R) Qs (map (writer grow (nid R)) jobs ++ map (reader rf dep (nid R)) gets) h0.
Proof.
  intros TI D H G. pose proof TI as (W & RR & _). set (may := some_set jobs R).
  assert (X1 : forall js, incl js jobs -> Forall2 (polite h0 may) (map (fun _ _ => True) js) (map (writer grow (nid R)) js)).
  { induction js as [|j js IH]; intros I; cbn; constructor.
    - destruct (sets_calm grow h0 may R j TI) as (l & C & O).
      { intros k v Hin. destruct (H j k v (I j (or_introl eq_refl)) Hin) as [a Ha]. exists a. split; [exact Ha|].
        exists j, k. split; [apply I; now left|]. auto. }
      unfold writer. eapply calm_polite; [exact C|]. intros. constructor. exact Logic.I.
    - apply IH. intros x Hx. apply I. now right. }
  assert (X2 : exists Qs, Forall2 (polite h0 may) Qs (map (reader rf dep (nid R)) gets)).
  { induction gets as [|[h p] gs IH]; [exists []; constructor|]. destruct IH as (Qs & F); [intros h1 p1 Hin; apply G; now right|].
    destruct (G h p (or_introl eq_refl)) as [r Er].
    eexists (_ :: Qs). constructor; [|exact F]. unfold reader. cbn [fst snd]. apply polite_got. apply (query_polite h0 may rf h R nx dep p r); auto. }
  destruct X2 as (Qs & F2). exists (map (fun _ _ => True) jobs ++ Qs). split; [apply state_refl|]. apply Forall2_app; auto. apply X1, incl_refl.
Qed.

Definition one_type (jobs : list (list (gostring * gval))) (R : node) : Prop :=
  forall key m v, In (key, m) (ents [] R) -> some_set jobs R (nid m) v -> tyv v = tyv (ndata m).
Lemma one_type_may h0 R jobs : tree_in h0 R -> one_type jobs R ->
  forall a v s, some_set jobs R a v -> hn h0 a = Some s -> tyv v = tyv (hdata s).
Proof.
  intros (W & RR & _) O a v s M E. pose proof M as (job & k & _ & _ & (m & Hm & <-)).
  rewrite (O _ m v Hm M). f_equal. clear -RR Hm E. revert Hm. generalize (runes k). generalize (@nil rune). 
  induction R as [n IH] using node_ind'. intros pre key. apply repr_eq in RR. destruct RR as [(s' & E' & (_ & _ & P3 & _) & _) Rk].
  rewrite ents_eq. intros [X|X].
  - injection X as <- <-. congruence.
  - apply in_flat_map in X. destruct X as (c & Hc & X). rewrite Forall_forall in *. eapply IH; eauto.
Qed.

Notation torn := (torn (any_types tyv) (any_words retype)).
Lemma torn_get_any h0 R nx jobs gets dep qs sch : tree_in h0 R -> depth R <= dep ->
  (forall job k v, In job jobs -> In (k, v) job -> exists a, key_at R k a) -> one_type jobs R ->
  (forall h p, In (h, p) gets -> exists r, search rf h (Tr R nx) (full h p) = Ok r) ->
  Forall2 torn (map (writer grow (nid R)) jobs ++ map (reader rf dep (nid R)) gets) qs ->
  let (ps, m) := schedule sch qs h0 in
  (exists R', repr m R' /\ map shape (ents [] R') = map shape (ents [] R)) /\
  (forall p, In p ps -> p <> Die /\ p <> Spin) /\
  (forall i h p r x, nth_error gets i = Some (h, p) -> search rf h (Tr R nx) (full h p) = Ok r ->
     nth_error ps (length jobs + i) = Some (Ret x) -> exists q, x = Got q /\ answers (some_set jobs R) (hdelim h) r q).
Proof.
  intros TI D H O G F. destruct (race_civil h0 R nx jobs gets dep TI D H G) as (Qs & C).
  pose proof (civil_steady h0 _ Qs _ C (one_type_may h0 R jobs TI O)) as S.
  destruct (torn_runs _ _ _ words_ty _ qs h0 sch F S) as (sch' & X).
  pose proof (race_get grow rf h0 R nx jobs gets dep sch' TI D H G) as Y.
  destruct (schedule sch' _ h0) as [ps' m']. destruct (schedule sch qs h0) as [ps m]. destruct X as [E M].
  destruct Y as ((R' & RR' & SH) & ND & AN). split; [|split].
  - exists R'. split; auto. eapply heq_repr; eauto.
  - intros p Hp. apply In_nth_error in Hp. destruct Hp as [i Hi]. destruct (Forall2_nth _ _ _ _ _ M Hi) as (p' & Hi' & Mp).
    apply nth_error_In in Hi'. destruct (ND p' Hi') as [N1 N2]. split; intros ->.
    + apply mid_die in Mp. congruence.
    + apply mid_spin in Mp. congruence.
  - intros i h p r x Hi Er Hx. destruct (Forall2_nth _ _ _ _ _ M Hx) as (p' & Hx' & Mp). apply mid_ret in Mp. subst p'. eauto.
Qed.
Lemma torn_sets h0 R jobs qs sch : tree_in h0 R ->
  (forall job k v, In job jobs -> In (k, v) job -> exists a, key_at R k a) -> one_type jobs R ->
  Forall2 torn (map (p_sets grow (nid R)) jobs) qs ->
  let (ps, h) := schedule sch qs h0 in
  exists R', repr h R' /\ map shape (ents [] R') = map shape (ents [] R) /\
    (forall p, In p ps -> p <> Die /\ p <> Spin) /\
    (forall k m', In (k, m') (ents [] R') -> exists m, In (k, m) (ents [] R) /\
       (ndata m' = ndata m \/ some_set jobs R (nid m) (ndata m')) /\
       ((forall p, In p ps -> p = Ret tt) -> (exists v, some_set jobs R (nid m) v) -> some_set jobs R (nid m) (ndata m'))).
Proof.
  intros TI H O F. pose proof TI as (W & RR & _). set (may := some_set jobs R).
  assert (X1 : forall js, incl js jobs -> Forall2 (polite h0 may) (map (fun _ _ => True) js) (map (p_sets grow (nid R)) js)).
  { induction js as [|j js IH]; intros I; cbn; constructor.
    - destruct (sets_calm grow h0 may R j TI) as (l & C & OO).
      { intros k v Hin. destruct (H j k v (I j (or_introl eq_refl)) Hin) as [a Ha]. exists a. split; [exact Ha|].
        exists j, k. split; [apply I; now left|]. auto. }
      clear -C. induction C as [x|l a s k E _ IH|l r i c k E _ IH|l a s y k E Y _ IH|l l1 a s v k E M I _ IH].
      + constructor. exact Logic.I.
      + apply pol_node with s; auto.
      + apply pol_elem with c; auto.
      + apply pol_type with s; auto.
      + apply pol_data with s; auto.
    - apply IH. intros x Hx. apply I. now right. }
  assert (C : civil h0 may (map (fun _ _ => True) jobs) (map (p_sets grow (nid R)) jobs) h0) by (split; [apply state_refl|apply X1, incl_refl]).
  pose proof (civil_steady h0 _ _ _ C (one_type_may h0 R jobs TI O)) as S.
  destruct (torn_runs _ _ _ words_ty _ qs h0 sch F S) as (sch' & X).
  pose proof (race_overwrite grow h0 R jobs sch' TI H) as Y.
  destruct (schedule sch' _ h0) as [ps' m']. destruct (schedule sch qs h0) as [ps m]. destruct X as [E M].
  destruct Y as (R' & RR' & SH & ND & AN). exists R'. split; [eapply heq_repr; eauto|]. split; auto. split.
  - intros p Hp. apply In_nth_error in Hp. destruct Hp as [i Hi]. destruct (Forall2_nth _ _ _ _ _ M Hi) as (p' & Hi' & Mp).
    apply nth_error_In in Hi'. destruct (ND p' Hi') as [N1 N2]. split; intros ->.
    + apply mid_die in Mp. congruence.
    + apply mid_spin in Mp. congruence.
  - intros k n' Hin. destruct (AN k n' Hin) as (n & Hn & V & W'). exists n. split; [auto|]. split; [auto|]. intros AL. apply W'.
    intros p Hp. clear -M AL Hp. induction M as [|a q ps' ps Hq M IH]; [easy|]. destruct Hp as [->|Hp].
    + rewrite (AL q) in Hq by now left. now apply mid_ret in Hq.
    + apply IH; auto. intros p0 H0. apply AL. now right.
Qed.
End Jobs.
Notation torn := (Torn.torn (any_types tyv) (any_words retype)).
Lemma torn_get_key grow rf' D h0 t jobs gets dep qs sch : tree_in h0 (root t) -> plain_reach D t -> depth (root t) <= dep ->
  (forall job k v, In job jobs -> In (k, v) job -> exists a, key_at (root t) k a) -> one_type jobs (root t) ->
  (forall h p, In (h, p) gets -> D (hdelim h)) ->
  Forall2 torn (map (writer grow (nid (root t))) jobs ++ map (reader (S rf') dep (nid (root t))) gets) qs ->
  let (ps, m) := schedule sch qs h0 in
  (forall p, In p ps -> p <> Die /\ p <> Spin) /\
  (forall i h p a x, nth_error gets i = Some (h, p) -> t_get t (runes (full h p)) = Some a ->
     nth_error ps (length jobs + i) = Some (Ret x) -> exists q, x = Got q /\
     q_branch q = negb (a_leaf a) /\ q_found q = (a_leaf a || ends_with (hdelim h) (runes (full h p))) /\
     (q_data q = (if a_has a then a_data a else GNil) \/ q_data q = a_data a \/
      exists job k, In job jobs /\ In (k, q_data q) job /\ runes k = runes (full h p))).
Proof.
  intros TI0 PR DP H OT DG TN. destruct (plain_reach_inv D t PR) as [WT PA].
  assert (SR : forall h p, In (h, p) gets -> exists r, search (S rf') h (Tr (root t) (next t)) (full h p) = Ok r).
  { intros h p Hin. destruct (plain_reach_search D rf' h t (full h p) PR (DG h p Hin)) as (r & E & _).
    exists r. destruct t. exact E. }
  pose proof (torn_get_any grow (S rf') h0 (root t) (next t) jobs gets dep qs sch TI0 DP H OT SR TN) as RG.
  destruct (schedule sch _ h0) as [ps m]. destruct RG as (_ & ND & G). split; [exact ND|].
  intros i h p a x Hi Ha Hx. pose proof (nth_error_In _ _ Hi) as Hin.
  destruct (plain_reach_search D rf' h t (full h p) PR (DG h p Hin)) as (r & E & SO & _).
  assert (E' : search (S rf') h (Tr (root t) (next t)) (full h p) = Ok r) by (destruct t; exact E).
  destruct (G i h p r x Hi E' Hx) as (q & -> & (A1 & A2 & A3 & A4)). exists q. split; [reflexivity|].
  destruct (query_present D rf' h t p a PR (DG h p Hin) Ha) as (q0 & EQ & Q1 & Q2 & Q3).
  unfold Query in EQ. rewrite E in EQ. cbn [bind] in EQ. injection EQ as <-.
  split; [congruence|]. split; [congruence|].
  rewrite search_mem in SO by (right; apply smem_sget; exists a; exact Ha).
  destruct SO as (n & Hn & _ & Sn & _).
  assert (AN : a_data a = ndata n).
  { unfold t_get in Ha. rewrite <- (abs_entries t) in Ha.
    assert (L : look (root t) (runes (full h p)) = Some (info_of n)).
    { apply look_in; [apply (proj1 WT)|]. unfold ients. apply in_map_iff. exists (runes (full h p), n). auto. }
    rewrite L in Ha. injection Ha as <-. reflexivity. }
  destruct A4 as [A4|(n' & N1 & _ & A4)]; [left; congruence|]. assert (n' = n) as -> by congruence.
  destruct A4 as [A4|(job & k & J1 & J2 & (mk & K1 & K2))]; [right; left; congruence|].
  right. right. exists job, k. split; [exact J1|]. split; [exact J2|].
  destruct (ids_inj (next t) (ients [] (root t)) (runes k) (info_of mk) (runes (full h p)) (info_of n)) as [X _]; auto; [apply WT| |].
  - unfold ients. apply in_map_iff. exists (runes k, mk). auto.
  - unfold ients. apply in_map_iff. exists (runes (full h p), n). auto.
Qed.
End Race.
