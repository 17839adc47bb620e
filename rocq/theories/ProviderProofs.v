(** Proofs about the providers. *)
From Coq Require Import String.
From Coq Require Import List NArith ZArith Bool Arith Lia Permutation Sorted ZifyBool ZifyNat ZifyN.
From Verif Require Import GoStr Utf8 Trie Climb Cvter Nested Export MergeProofs Misc MiscProofs CvtProofs Provider.
Import ListNotations.
Open Scope nat_scope.
Open Scope list_scope.

(** ** splitting at one byte *)
Lemma split1_cons c cur b t : split_go [c] 0 cur (b :: t) =
  if (c =? b)%N then rev cur :: split_go [c] 0 [] t else split_go [c] 0 (b :: cur) t.
Proof. cbn [split_go has_prefix length pred]. now rewrite andb_true_r. Qed.
Lemma join_cons a l d : l <> [] -> join_str (a :: l) d = a ++ d ++ join_str l d.
Proof. destruct l; [congruence|reflexivity]. Qed.
Lemma join_replace c d s : forall cur, join_str (split_go [c] 0 cur s) d = rev cur ++ flat_map (fun b => if (b =? c)%N then d else [b]) s.
Proof.
  induction s as [|b s IH]; intros cur; [cbn; now rewrite app_nil_r|].
  rewrite split1_cons. cbn [flat_map]. rewrite (N.eqb_sym b c). destruct (c =? b)%N.
  - rewrite join_cons by apply split_go_ne. rewrite IH. cbn. reflexivity.
  - rewrite IH. cbn [rev]. rewrite <- app_assoc. reflexivity.
Qed.
Lemma replace_slash_join d s : replace_slash d s = join_str (split_str s slash) d.
Proof. unfold split_str, slash. rewrite join_replace. reflexivity. Qed.
Lemma split1_app c a b : ~ In c a -> forall cur, split_go [c] 0 cur (a ++ c :: b) = (rev cur ++ a) :: split_go [c] 0 [] b.
Proof.
  induction a as [|x a IH]; intros H cur; cbn [app]; rewrite split1_cons.
  - rewrite N.eqb_refl, app_nil_r. reflexivity.
  - destruct (N.eqb_spec c x); [exfalso; apply H; cbn; auto|]. rewrite IH by (intros X; apply H; cbn; auto).
    cbn [rev]. rewrite <- app_assoc. reflexivity.
Qed.
Lemma split_app c a b : split_str (a ++ c :: b) [c] = split_str a [c] ++ split_str b [c].
Proof.
  unfold split_str. enough (G : forall cur, split_go [c] 0 cur (a ++ c :: b) = split_go [c] 0 cur a ++ split_go [c] 0 [] b) by apply G.
  induction a as [|x a IH]; intros cur.
  - cbn [app]. rewrite split1_cons, N.eqb_refl. reflexivity.
  - cbn [app]. rewrite !split1_cons. destruct (c =? x)%N; [cbn; f_equal|]; apply IH.
Qed.

(** ** env *)
Lemma cut_eq_spec p a b : cut_eq p = Some (a, b) <-> p = a ++ 61%N :: b /\ ~ In 61%N a.
Proof.
  revert a. induction p as [|c p IH]; intros a; cbn [cut_eq].
  - split; [discriminate|]. intros [E _]. destruct a; discriminate.
  - destruct (N.eqb_spec c 61) as [->|Hc].
    + split; [intros E; injection E as <- <-; split; [reflexivity|intros []]|].
      intros [E Ha]. destruct a as [|x a]; [cbn in E; injection E as ->; reflexivity|]. cbn in E. injection E as <- E. exfalso. apply Ha. cbn. auto.
    + destruct (cut_eq p) as [[x y]|] eqn:E.
      * split.
        -- intros X. injection X as <- <-. destruct (proj1 (IH x) eq_refl) as [E1 E2]. split; [cbn; congruence|].
           cbn. intros [X|X]; [congruence|tauto].
        -- intros [X Ha]. destruct a as [|z a]; [cbn in X; congruence|]. cbn in X. injection X as <- X.
           assert (Y : Some (x, y) = Some (a, b)); [|injection Y as -> ->; reflexivity].
           apply IH. split; auto. intros Z. apply Ha. cbn. auto.
      * split; [discriminate|]. intros [X Ha]. destruct a as [|z a]; [cbn in X; congruence|]. cbn in X. injection X as <- X.
        assert (Y : None = Some (a, b)); [|discriminate]. apply IH. split; auto. intros Z. apply Ha. cbn. auto.
Qed.

(** where re_u2d writes a dot *)
Definition dot_at (k : gostring) (i : nat) : bool :=
  match nth_error k i, nth_error k (S i) with
  | Some c, Some x => (c =? 95)%N && negb (x =? 95)%N
  | _, _ => false
  end.
Lemma re_u2d_nth k : forall i, nth_error (re_u2d k) i = if dot_at k i then Some 46%N else nth_error k i.
Proof.
  unfold dot_at. induction k as [|c k IH]; intros i; [destruct i; reflexivity|].
  destruct i as [|i]; cbn [re_u2d nth_error].
  - destruct (N.eqb_spec c 95) as [->|]; [|destruct k; reflexivity]. destruct k as [|x k]; [reflexivity|]. cbn.
    destruct (x =? 95)%N; reflexivity.
  - rewrite IH. reflexivity.
Qed.
(** every underline that is followed by something else becomes a dot, but for the first character;
    nothing else changes *)
Theorem u2d_spec k : k <> [] -> exists r, u2d k = Ok r /\ length r = length k /\
  forall i, nth_error r i = if (0 <? i) && dot_at k i then Some 46%N else nth_error k i.
Proof.
  destruct k as [|c k]; [congruence|]. intros _. exists (c :: re_u2d k). split; [reflexivity|]. split.
  - cbn. f_equal. clear. induction k; cbn; auto.
  - intros [|i]; [reflexivity|]. cbn [nth_error]. rewrite re_u2d_nth. reflexivity.
Qed.
Lemma re_u2d_join parts : Forall (fun p => p <> [] /\ ~ In 95%N p) parts ->
  re_u2d (join_str parts [95%N]) = join_str parts [46%N].
Proof.
  induction 1 as [|p parts [Hp Hn] F IH]; [reflexivity|].
  assert (NU : forall q r, ~ In 95%N q -> re_u2d (q ++ r) = q ++ re_u2d r).
  { induction q as [|c q IHq]; intros r Hq; [reflexivity|]. cbn [app re_u2d].
    destruct (N.eqb_spec c 95); [exfalso; apply Hq; cbn; auto|]. f_equal. apply IHq. intros X. apply Hq. cbn. auto. }
  destruct parts as [|q parts].
  - cbn [join_str]. rewrite <- (app_nil_r p) at 1. rewrite NU by exact Hn. cbn. apply app_nil_r.
  - rewrite (join_cons p _ [95%N]), (join_cons p _ [46%N]) by discriminate. rewrite NU by exact Hn. f_equal.
  rewrite <- IH.
    inversion F as [|? ? [Hq Hqn] _]; subst. destruct q as [|x q]; [congruence|].
    assert (S : exists r, join_str ((x :: q) :: parts) [95%N] = x :: r) by (destruct parts; cbn; eauto).
    destruct S as [r ->]. cbn [app re_u2d]. rewrite N.eqb_refl.
    destruct (N.eqb_spec x 95); [exfalso; apply Hqn; cbn; auto|]. reflexivity.
Qed.
Theorem u2d_parts k : Forall (fun p => p <> []) (split_str k [95%N]) -> u2d k = Ok (join_str (split_str k [95%N]) [46%N]).
Proof.
  intros F. destruct (join_split [95%N] k) as [C J]; [discriminate|].
  assert (F2 : Forall (fun p => p <> [] /\ ~ In 95%N p) (split_str k [95%N])).
  { rewrite Forall_forall in *. intros p Hp. split; [now apply F|]. intros Hin. specialize (C p Hp).
    apply in_split in Hin. destruct Hin as (l1 & l2 & ->).
    rewrite contains_false in C. specialize (C l1 (95%N :: l2) eq_refl). cbn in C. discriminate. }
  pose proof (re_u2d_join _ F2) as R. rewrite J in R. rewrite <- R.
  destruct k as [|c k]; [exfalso; cbn in F; inversion F; congruence|]. cbn [u2d re_u2d].
  destruct (N.eqb_spec c 95) as [->|]; [|reflexivity]. exfalso.
  unfold split_str in F. rewrite split1_cons in F. cbn in F. inversion F; congruence.
Qed.

(** the entries that are taken *)
Theorem env_entry_spec o p k v : env_entry o p = Some (k, v) <->
  p = k ++ 61%N :: v /\ k <> [] /\ ~ In 61%N k /\ (e_prefix o = [] \/ has_prefix (e_prefix o) k = true).
Proof.
  unfold env_entry. split.
  - destruct (cut_eq p) as [[a b]|] eqn:E; [|discriminate]. apply cut_eq_spec in E. destruct E as [E1 E2].
    destruct a as [|c a]; [discriminate|].
    destruct (is_nil (e_prefix o)) eqn:N1; destruct (has_prefix (e_prefix o) (c :: a)) eqn:N2; cbn [negb andb]; intros X;
      try discriminate; injection X as <- <-; (split; [exact E1|split; [discriminate|split; [exact E2|]]]); auto.
    left. now destruct (e_prefix o).
  - intros (E1 & E2 & E3 & E4). rewrite (proj2 (cut_eq_spec p k v) (conj E1 E3)). destruct k as [|c k]; [congruence|].
    destruct E4 as [-> | ->]; cbn [is_nil negb andb]; [reflexivity|]. rewrite andb_false_r. reflexivity.
Qed.
Fixpoint taken (o : envopts) (vec : list gostring) : list (gostring * gostring) :=
  match vec with
  | [] => []
  | p :: r => match env_entry o p with Some e => e :: taken o r | None => taken o r end
  end.
Theorem taken_spec o vec k v : In (k, v) (taken o vec) <->
  In (k ++ 61%N :: v) vec /\ k <> [] /\ ~ In 61%N k /\ (e_prefix o = [] \/ has_prefix (e_prefix o) k = true).
Proof.
  induction vec as [|p vec IH]; cbn [taken]; [cbn; tauto|].
  destruct (env_entry o p) as [[a b]|] eqn:E.
  - cbn [In]. rewrite IH. apply env_entry_spec in E. split.
    + intros [X|X]; [injection X as -> ->; destruct E as (-> & E); auto|tauto].
    + intros ([X|X] & E2 & E3 & E4); [|tauto]. left. destruct E as (E5 & E6 & E7 & _).
      assert (Y : Some (a, b) = Some (k, v)); [|congruence].
      rewrite <- (proj2 (cut_eq_spec p a b) (conj E5 E7)). now apply cut_eq_spec.
  - rewrite IH. cbn [In]. split; [tauto|]. intros ([X|X] & E2 & E3 & E4); [|tauto]. exfalso.
    assert (Y : env_entry o p = Some (k, v)) by (apply env_entry_spec; auto). congruence.
Qed.
Section EnvProofs.
Variable lower : gostring -> gostring.
(** the name that is left before the mapping *)
Definition bare (o : envopts) (k : gostring) : gostring :=
  let k := if e_lower o then lower k else k in
  if is_nil (e_strip o) then k else trim_prefix k (e_strip o).
(** the mapping: specification for options with underline2dot *)
Theorem env_key_dotted o k : e_u2d o = true -> e_cb o = None ->
  Forall (fun p => p <> []) (split_str (bare o k) [95%N]) ->
  env_key lower o k = Ok (join_str ((if is_nil (e_store o) then [] else [e_store o]) ++ split_str (bare o k) [95%N]) [46%N]).
Proof.
  intros H1 H2 F. unfold env_key. fold (bare o k). rewrite H1, H2, (u2d_parts _ F). cbn [bind].
  destruct (is_nil (e_store o)); [reflexivity|]. cbn [app]. rewrite join_cons by apply split_ne. reflexivity.
Qed.
Theorem env_key_plain o k : e_u2d o = false -> e_cb o = None ->
  env_key lower o k = Ok ((if is_nil (e_store o) then [] else e_store o ++ [46%N]) ++ bare o k).
Proof.
  intros H1 H2. unfold env_key. fold (bare o k). rewrite H1, H2. cbn [bind].
  destruct (is_nil (e_store o)); [reflexivity|]. rewrite <- app_assoc. reflexivity.
Qed.
(** it fails exactly when nothing is left of the name *)
Theorem env_key_panics o k : env_key lower o k = Panic <-> e_u2d o = true /\ bare o k = [].
Proof.
  unfold env_key. fold (bare o k). destruct (e_u2d o); cbn [bind].
  - destruct (bare o k) as [|c r]; cbn [u2d bind]; [tauto|]. split; [discriminate|intros [_ X]; discriminate].
  - split; [discriminate|intros [X _]; discriminate].
Qed.
Lemma env_key_total o k : env_key lower o k <> Fuel.
Proof. unfold env_key. fold (bare o k). destruct (e_u2d o); [destruct (bare o k)|]; cbn; discriminate. Qed.

Definition key_or (o : envopts) (k : gostring) : gostring := match env_key lower o k with Ok r => r | _ => [] end.
Lemma env_loop_ok o vec : (forall k v, In (k, v) (taken o vec) -> env_key lower o k <> Panic) -> forall m ks,
  env_loop lower o vec m ks =
  Ok (EnvS (fold_left (fun m e => mset m (key_or o (fst e)) (GStr (snd e))) (taken o vec) m)
           (sort_strings (ks ++ map (fun e => key_or o (fst e)) (taken o vec))) 0).
Proof.
  induction vec as [|p vec IH]; intros H m ks; cbn [env_loop taken]; [cbn; now rewrite app_nil_r|].
  cbn [taken] in H. destruct (env_entry o p) as [[k v]|] eqn:E; [|now apply IH].
  assert (K : env_key lower o k = Ok (key_or o k)).
  { unfold key_or. destruct (env_key lower o k) eqn:X; auto.
    - exfalso. apply (H k v); [cbn; auto|exact X].
    - exfalso. now apply (env_key_total o k). }
  rewrite K. cbn [bind]. rewrite IH by (intros a b Hab; apply (H a b); cbn; auto).
  cbn [fold_left map fst snd]. rewrite <- app_assoc. reflexivity.
Qed.
Lemma mget_assign o (l : list (gostring * gostring)) k : forall m,
  mget (fold_left (fun m e => mset m (key_or o (fst e)) (GStr (snd e))) l m) k =
  match find (fun e => str_eqb (key_or o (fst e)) k) (rev l) with
  | Some e => Some (GStr (snd e))
  | None => mget m k
  end.
Proof.
  induction l as [|[a b] l IH] using rev_ind; intros m; [reflexivity|].
  rewrite fold_left_app, rev_app_distr. cbn [rev app find fold_left fst snd]. rewrite mget_mset.
  destruct (str_eqb (key_or o a) k); auto.
Qed.
(** what a prepared provider holds: the keys of the taken entries in ascending order; each key has the
    value of the last entry with this key *)
Theorem env_prepare_spec o vec : (forall k v, In (k, v) (taken o vec) -> e_u2d o = true -> bare o k <> []) ->
  exists s, env_prepare lower o vec = Ok s /\
    StronglySorted str_le (e_keys s) /\
    Permutation (map Ok (e_keys s)) (map (fun e => env_key lower o (fst e)) (taken o vec)) /\
    (forall k, env_Has s k = true <-> In k (e_keys s)) /\
    (forall k v, env_Value s k = Some (GStr v) <->
       exists a n b, taken o vec = a ++ (n, v) :: b /\ env_key lower o n = Ok k /\
         forall n' v', In (n', v') b -> env_key lower o n' <> Ok k).
Proof.
  intros H. assert (NP : forall k v, In (k, v) (taken o vec) -> env_key lower o k <> Panic).
  { intros k v Hin X. apply env_key_panics in X. destruct X as [X1 X2]. now apply (H k v Hin X1). }
  assert (KO : forall k v, In (k, v) (taken o vec) -> env_key lower o k = Ok (key_or o k)).
  { intros k v Hin. unfold key_or. destruct (env_key lower o k) eqn:X; auto.
    - exfalso. now apply (NP k v Hin).
    - exfalso. now apply (env_key_total o k). }
  eexists. split; [apply env_loop_ok; exact NP|]. cbn [e_keys e_m app].
  split; [apply sort_sorted|]. split.
  { eapply Permutation_trans; [apply Permutation_map, sort_perm|]. rewrite map_map.
    rewrite (map_ext_in (fun x => Ok (key_or o (fst x))) (fun e => env_key lower o (fst e))); [apply Permutation_refl|].
    intros [k v] Hin. cbn [fst]. symmetry. apply (KO k v Hin). }
  split.
  - intros k. unfold env_Has. cbn [e_m]. rewrite mget_assign. cbn [mget].
    assert (P : forall x, In x (sort_strings (map (fun e => key_or o (fst e)) (taken o vec))) <-> In x (map (fun e => key_or o (fst e)) (taken o vec))).
    { intros x. split; apply Permutation_in; [|apply Permutation_sym]; apply sort_perm. }
    rewrite P. destruct (find _ (rev (taken o vec))) as [e|] eqn:F.
    + apply find_some in F. destruct F as [F1 F2]. apply str_eqb_eq in F2. split; auto. intros _.
      apply in_map_iff. exists e. split; auto. now apply in_rev.
    + split; [discriminate|]. intros Hin. apply in_map_iff in Hin. destruct Hin as (e & E & Hin).
      apply in_rev in Hin. pose proof (find_none _ _ F e Hin) as X. cbn in X. rewrite E, str_eqb_refl in X. discriminate.
  - intros k v. unfold env_Value. cbn [e_m]. rewrite mget_assign. cbn [mget].
    assert (G : forall l, (forall a b, In (a, b) l -> env_key lower o a = Ok (key_or o a)) ->
      (match find (fun e : gostring * gostring => str_eqb (key_or o (fst e)) k) (rev l) with
       | Some e => Some (GStr (snd e)) | None => None end = Some (GStr v) <->
       exists a n b, l = a ++ (n, v) :: b /\ env_key lower o n = Ok k /\
         forall n' v', In (n', v') b -> env_key lower o n' <> Ok k)).
    { clear. intros l. induction l as [|[n w] l IH] using rev_ind; intros K.
      - cbn. split; [discriminate|]. intros (a & n & b & E & _). destruct a; discriminate.
      - rewrite rev_app_distr. cbn [rev app find fst snd].
        assert (Kn : env_key lower o n = Ok (key_or o n)) by (apply (K n w); apply in_or_app; cbn; auto).
        destruct (str_eqb (key_or o n) k) eqn:E.
        + apply str_eqb_eq in E. split.
          * intros X. injection X as ->. exists l, n, []. split; auto. split; [congruence|intros n' v' []].
          * intros (a & n' & b & E1 & E2 & E3).
            destruct b as [|x b] using rev_ind.
            -- apply app_inj_tail in E1. destruct E1 as [_ E1]. injection E1 as -> ->. reflexivity.
            -- clear IHb. rewrite app_comm_cons, app_assoc in E1. apply app_inj_tail in E1. destruct E1 as [_ <-].
               exfalso. apply (E3 n w); [apply in_or_app; cbn; auto|congruence].
        + assert (Nk : key_or o n <> k) by (intros X; rewrite X, str_eqb_refl in E; discriminate).
          rewrite IH by (intros a b Hab; apply (K a b); apply in_or_app; auto). split.
          * intros (a & n' & b & -> & E2 & E3). exists a, n', (b ++ [(n, w)]).
            split; [now rewrite <- app_assoc|]. split; auto. intros n'' v' Hin. apply in_app_or in Hin.
            destruct Hin as [Hin|[X|[]]]; [eauto|]. injection X as <- <-. rewrite Kn. congruence.
          * intros (a & n' & b & E1 & E2 & E3). destruct b as [|x b] using rev_ind.
            -- apply app_inj_tail in E1. destruct E1 as [_ E1]. injection E1 as -> ->. congruence.
            -- clear IHb. rewrite app_comm_cons, app_assoc in E1. apply app_inj_tail in E1. destruct E1 as [-> <-].
               exists a, n', b. split; auto. split; auto. intros n'' v' Hin. apply (E3 n'' v'). apply in_or_app. auto. }
    apply G. exact KO.
Qed.
(** a single entry whose name is used up by the stripped prefix makes New panic *)
Theorem env_panic_refuted o vec k v : e_u2d o = true -> In (k, v) (taken o vec) -> bare o k = [] ->
  env_prepare lower o vec = Panic.
Proof.
  intros H1 H2 H3. unfold env_prepare. generalize (@nil (gostring * gval)) as m, (@nil gostring) as ks.
  induction vec as [|p vec IH]; intros m ks; [destruct H2|]. cbn [env_loop taken] in *.
  destruct (env_entry o p) as [[a b]|] eqn:E; [|now apply IH].
  destruct H2 as [X|H2].
  - injection X as -> ->. rewrite (proj2 (env_key_panics o k) (conj H1 H3)). reflexivity.
  - destruct (env_key lower o a) eqn:K; cbn [bind]; [now apply IH|reflexivity|]. exfalso. now apply (env_key_total o a).
Qed.
(** ** flags: the same with values that need not be strings *)
Definition ftaken (o : envopts) (vec : list (gostring * gval)) : list (gostring * gval) :=
  filter (fun e => is_nil (e_prefix o) || has_prefix (e_prefix o) (fst e)) vec.
Lemma flags_loop_ok o vec : (forall k v, In (k, v) (ftaken o vec) -> env_key lower o k <> Panic) -> forall m ks,
  flags_loop lower o vec m ks =
  Ok (EnvS (fold_left (fun m e => mset m (key_or o (fst e)) (snd e)) (ftaken o vec) m)
           (sort_strings (ks ++ map (fun e => key_or o (fst e)) (ftaken o vec))) 0).
Proof.
  induction vec as [|[k v] vec IH]; intros H m ks; cbn [flags_loop ftaken filter fst]; [cbn; now rewrite app_nil_r|].
  cbn [ftaken filter fst] in H.
  rewrite <- negb_orb. destruct (is_nil (e_prefix o) || has_prefix (e_prefix o) k); cbn [negb]; [|now apply IH].
  assert (K : env_key lower o k = Ok (key_or o k)).
  { unfold key_or. destruct (env_key lower o k) eqn:X; auto.
    - exfalso. apply (H k v); [cbn; auto|exact X].
    - exfalso. now apply (env_key_total o k). }
  rewrite K. cbn [bind]. rewrite IH by (intros a b Hab; apply (H a b); cbn; auto).
  cbn [fold_left map fst snd]. rewrite <- app_assoc. reflexivity.
Qed.
Lemma mget_assign2 o (l : list (gostring * gval)) k : forall m,
  mget (fold_left (fun m e => mset m (key_or o (fst e)) (snd e)) l m) k =
  match find (fun e => str_eqb (key_or o (fst e)) k) (rev l) with
  | Some e => Some (snd e)
  | None => mget m k
  end.
Proof.
  induction l as [|[a b] l IH] using rev_ind; intros m; [reflexivity|].
  rewrite fold_left_app, rev_app_distr. cbn [rev app find fold_left fst snd]. rewrite mget_mset.
  destruct (str_eqb (key_or o a) k); auto.
Qed.
Theorem flags_prepare_spec o vec : (forall k v, In (k, v) (ftaken o vec) -> e_u2d o = true -> bare o k <> []) ->
  exists s, flags_prepare lower o vec = Ok s /\
    StronglySorted str_le (e_keys s) /\
    Permutation (map Ok (e_keys s)) (map (fun e => env_key lower o (fst e)) (ftaken o vec)) /\
    (forall k, env_Has s k = true <-> In k (e_keys s)) /\
    (forall k v, env_Value s k = Some v <->
       exists a n b, ftaken o vec = a ++ (n, v) :: b /\ env_key lower o n = Ok k /\
         forall n' v', In (n', v') b -> env_key lower o n' <> Ok k).
Proof.
  intros H. assert (NP : forall k v, In (k, v) (ftaken o vec) -> env_key lower o k <> Panic).
  { intros k v Hin X. apply env_key_panics in X. destruct X as [X1 X2]. now apply (H k v Hin X1). }
  assert (KO : forall k v, In (k, v) (ftaken o vec) -> env_key lower o k = Ok (key_or o k)).
  { intros k v Hin. unfold key_or. destruct (env_key lower o k) eqn:X; auto.
    - exfalso. now apply (NP k v Hin).
    - exfalso. now apply (env_key_total o k). }
  eexists. split; [apply flags_loop_ok; exact NP|]. cbn [e_keys e_m app].
  split; [apply sort_sorted|]. split.
  { eapply Permutation_trans; [apply Permutation_map, sort_perm|]. rewrite map_map.
    rewrite (map_ext_in (fun x => Ok (key_or o (fst x))) (fun e => env_key lower o (fst e))); [apply Permutation_refl|].
    intros [k v] Hin. cbn [fst]. symmetry. apply (KO k v Hin). }
  split.
  - intros k. unfold env_Has. cbn [e_m]. rewrite mget_assign2. cbn [mget].
    assert (P : forall x, In x (sort_strings (map (fun e => key_or o (fst e)) (ftaken o vec))) <-> In x (map (fun e => key_or o (fst e)) (ftaken o vec))).
    { intros x. split; apply Permutation_in; [|apply Permutation_sym]; apply sort_perm. }
    rewrite P. destruct (find _ (rev (ftaken o vec))) as [e|] eqn:F.
    + apply find_some in F. destruct F as [F1 F2]. apply str_eqb_eq in F2. split; auto. intros _.
      apply in_map_iff. exists e. split; auto. now apply in_rev.
    + split; [discriminate|]. intros Hin. apply in_map_iff in Hin. destruct Hin as (e & E & Hin).
      apply in_rev in Hin. pose proof (find_none _ _ F e Hin) as X. cbn in X. rewrite E, str_eqb_refl in X. discriminate.
  - intros k v. unfold env_Value. cbn [e_m]. rewrite mget_assign2. cbn [mget].
    assert (G : forall l, (forall a b, In (a, b) l -> env_key lower o a = Ok (key_or o a)) ->
      (match find (fun e : gostring * gval => str_eqb (key_or o (fst e)) k) (rev l) with
       | Some e => Some (snd e) | None => None end = Some v <->
       exists a n b, l = a ++ (n, v) :: b /\ env_key lower o n = Ok k /\
         forall n' v', In (n', v') b -> env_key lower o n' <> Ok k)).
    { clear. intros l. induction l as [|[n w] l IH] using rev_ind; intros K.
      - cbn. split; [discriminate|]. intros (a & n & b & E & _). destruct a; discriminate.
      - rewrite rev_app_distr. cbn [rev app find fst snd].
        assert (Kn : env_key lower o n = Ok (key_or o n)) by (apply (K n w); apply in_or_app; cbn; auto).
        destruct (str_eqb (key_or o n) k) eqn:E.
        + apply str_eqb_eq in E. split.
          * intros X. injection X as ->. exists l, n, []. split; auto. split; [congruence|intros n' v' []].
          * intros (a & n' & b & E1 & E2 & E3).
            destruct b as [|x b] using rev_ind.
            -- apply app_inj_tail in E1. destruct E1 as [_ E1]. injection E1 as -> ->. reflexivity.
            -- clear IHb. rewrite app_comm_cons, app_assoc in E1. apply app_inj_tail in E1. destruct E1 as [_ <-].
               exfalso. apply (E3 n w); [apply in_or_app; cbn; auto|congruence].
        + assert (Nk : key_or o n <> k) by (intros X; rewrite X, str_eqb_refl in E; discriminate).
          rewrite IH by (intros a b Hab; apply (K a b); apply in_or_app; auto). split.
          * intros (a & n' & b & -> & E2 & E3). exists a, n', (b ++ [(n, w)]).
            split; [now rewrite <- app_assoc|]. split; auto. intros n'' v' Hin. apply in_app_or in Hin.
            destruct Hin as [Hin|[X|[]]]; [eauto|]. injection X as <- <-. rewrite Kn. congruence.
          * intros (a & n' & b & E1 & E2 & E3). destruct b as [|x b] using rev_ind.
            -- apply app_inj_tail in E1. destruct E1 as [_ E1]. injection E1 as -> ->. congruence.
            -- clear IHb. rewrite app_comm_cons, app_assoc in E1. apply app_inj_tail in E1. destruct E1 as [-> <-].
               exists a, n', b. split; auto. split; auto. intros n'' v' Hin. apply (E3 n'' v'). apply in_or_app. auto. }
    apply G. exact KO.
Qed.
End EnvProofs.

(** Next: with keys it says "end" for ever and moves nowhere, without it panics *)
Theorem env_next_refuted s : e_keys s <> [] -> e_pos s = 0 -> env_Next s = Ok (s, [], true).
Proof. intros H P. unfold env_Next. rewrite P. destruct (e_keys s); [congruence|]. reflexivity. Qed.
Theorem env_next_panic_refuted s : length (e_keys s) <= e_pos s -> env_Next s = Panic.
Proof.
  intros H. unfold env_Next. replace (e_pos s <? length (e_keys s)) with false by lia.
  rewrite (proj2 (nth_error_None _ _)) by exact H. reflexivity.
Qed.
(** stripping after lower-casing: a stripped prefix with a capital never matches *)
Definition capital (c : N) : Prop := (65 <= c <= 90)%N.
Lemma lowerA_no_capital s c : In c (lowerA s) -> ~ capital c.
Proof.
  unfold lowerA, capital. intros H. apply in_map_iff in H. destruct H as (x & <- & _).
  destruct ((65 <=? x)%N && (x <=? 90)%N) eqn:E; lia.
Qed.
Theorem env_strip_refuted o k c : e_lower o = true -> In c (e_strip o) -> capital c -> bare lowerA o k = lowerA k.
Proof.
  intros H1 H2 H3. unfold bare. rewrite H1. destruct (is_nil (e_strip o)) eqn:N; [reflexivity|].
  unfold trim_prefix. destruct (has_prefix (e_strip o) (lowerA k)) eqn:E; [|reflexivity].
  exfalso. apply has_prefix_ex in E. destruct E as [t E].
  apply (lowerA_no_capital k c); auto. rewrite E. apply in_or_app. auto.
Qed.
(** flags: the prefix is upper-cased but the names are not, so with a letter in the prefix no flag with
    a lower-case name is taken *)
Theorem flags_prefix_refuted p strips o vec c : In c p -> capital c \/ (97 <= c <= 122)%N ->
  Forall (fun e => lowerA (fst e) = fst e) vec ->
  flags_prepare lowerA (env_WithPrefix upperA p strips o) vec = Ok (EnvS [] [] 0).
Proof.
  intros Hc Hl F. unfold flags_prepare. induction F as [|[k v] vec Hk _ IH]; [reflexivity|]. cbn [flags_loop].
  cbn [fst] in Hk. set (o' := env_WithPrefix upperA p strips o) in *.
  assert (P : e_prefix o' = upperA p) by reflexivity. rewrite P.
  assert (C : exists u, In u (upperA p) /\ capital u).
  { exists (if (97 <=? c)%N && (c <=? 122)%N then c - 32 else c)%N. split.
    - unfold upperA. apply in_map_iff. exists c. auto.
    - unfold capital in *. destruct ((97 <=? c)%N && (c <=? 122)%N) eqn:E; lia. }
  destruct C as (u & U1 & U2).
  assert (N : is_nil (upperA p) = false) by (destruct (upperA p); [destruct U1|reflexivity]).
  assert (HP : has_prefix (upperA p) k = false).
  { destruct (has_prefix (upperA p) k) eqn:E; auto. exfalso. apply has_prefix_ex in E. destruct E as [t E].
    rewrite <- Hk in E. apply (lowerA_no_capital k u); auto. rewrite E. apply in_or_app. auto. }
  rewrite N, HP. cbn [negb andb]. exact IH.
Qed.
(** names that become one key are counted, and listed, twice *)
Theorem env_count_refuted :
  exists s, env_prepare lowerA env_default [s2b "A=1"%string; s2b "a=2"%string] = Ok s /\
    env_Count s = 2%nat /\ length (e_m s) = 1%nat /\ e_keys s = [s2b "a"%string; s2b "a"%string].
Proof. eexists. split; [vm_compute; reflexivity|]. split; [|split]; vm_compute; reflexivity. Qed.

(** ** NormalizeKey *)
Definition prepended (o : nkopts) : list gostring := if is_nil (n_prepend o) then [] else split_str (n_prepend o) slash.
Lemma replace_id d s : ~ In 47%N s -> replace_slash d s = s.
Proof.
  induction s as [|c s IH]; intros H; [reflexivity|]. unfold replace_slash. cbn [flat_map].
  destruct (N.eqb_spec c 47); [exfalso; apply H; cbn; auto|]. cbn. f_equal. apply IH. intros X. apply H. cbn. auto.
Qed.
Lemma replace_self s : replace_slash slash s = s.
Proof.
  induction s as [|c s IH]; [reflexivity|]. unfold replace_slash. cbn [flat_map].
  destruct (N.eqb_spec c 47) as [->|]; cbn; f_equal; exact IH.
Qed.
Lemma replace_app d a b : replace_slash d (a ++ b) = replace_slash d a ++ replace_slash d b.
Proof. apply flat_map_app. Qed.
Lemma join_app a b d : a <> [] -> b <> [] -> join_str (a ++ b) d = join_str a d ++ d ++ join_str b d.
Proof.
  intros Ha Hb. induction a as [|x a IH]; [congruence|]. destruct a as [|y a].
  - cbn [app]. now rewrite join_cons.
  - cbn [app]. rewrite join_cons by discriminate. cbn [app] in IH. rewrite IH by discriminate.
    rewrite (join_cons x (y :: a)) by discriminate. now rewrite <- !app_assoc.
Qed.
(** the path of a key: what is below the stripped path, or the whole of it *)
Definition rest_of (o : nkopts) (key : gostring) : gostring :=
  if is_nil (n_strip o) then key else trim_prefix key (n_strip o ++ slash).
Theorem rest_of_spec o key : n_strip o <> [] ->
  (forall r, key = n_strip o ++ slash ++ r -> rest_of o key = r) /\
  ((forall r, key <> n_strip o ++ slash ++ r) -> rest_of o key = key).
Proof.
  intros H. unfold rest_of, trim_prefix. destruct (is_nil (n_strip o)) eqn:N; [destruct (n_strip o); [congruence|discriminate]|].
  split.
  - intros r ->. rewrite app_assoc, has_prefix_app, skipn_app, skipn_all, Nat.sub_diag. reflexivity.
  - intros X. destruct (has_prefix (n_strip o ++ slash) key) eqn:E; [|reflexivity].
    apply has_prefix_ex in E. destruct E as [t ->]. exfalso. apply (X t). now rewrite <- app_assoc.
Qed.
(** the segments of the key, after those of the prepended path, joined by the delimiter *)
Theorem normalize_key_spec o key : n_delim o <> [] -> (In 47%N (n_delim o) -> n_delim o = slash) ->
  NormalizeKey o key = join_str (prepended o ++ split_str (rest_of o key) slash) (n_delim o).
Proof.
  intros Hd Hs. unfold NormalizeKey. fold (rest_of o key). set (r := rest_of o key).
  destruct (is_nil (n_delim o)) eqn:N; [destruct (n_delim o); [congruence|discriminate]|].
  assert (D : replace_slash (n_delim o) (n_delim o) = n_delim o).
  { destruct (in_dec N.eq_dec 47%N (n_delim o)) as [X|X]; [rewrite (Hs X); apply replace_self|now apply replace_id]. }
  unfold prepended. destruct (is_nil (n_prepend o)).
  - apply replace_slash_join.
  - rewrite !replace_app, D, !replace_slash_join. rewrite join_app by apply split_ne. reflexivity.
Qed.
(** keys without the delimiter in them stay distinct *)
Theorem normalize_key_inj o a b : unbordered (n_delim o) -> (In 47%N (n_delim o) -> n_delim o = slash) -> n_strip o = [] ->
  Forall (fun p => contains (n_delim o) p = false) (prepended o ++ split_str a slash) ->
  Forall (fun p => contains (n_delim o) p = false) (prepended o ++ split_str b slash) ->
  NormalizeKey o a = NormalizeKey o b -> a = b.
Proof.
  intros U Hs St Fa Fb E. rewrite !normalize_key_spec in E by (try exact Hs; apply U).
  assert (R : forall k, rest_of o k = k) by (intros k; unfold rest_of; rewrite St; reflexivity).
  rewrite !R in E. apply (f_equal (fun s => split_str s (n_delim o))) in E.
  assert (NE : forall k, prepended o ++ split_str k slash <> []).
  { intros k X. apply app_eq_nil in X. destruct X as [_ X]. now apply split_ne in X. }
  rewrite !split_join in E by auto.
  apply app_inv_head in E. apply split_inj' in E; [exact E|discriminate].
Qed.
(** without a delimiter the prepended path is glued to the key; and keys can collide *)
Theorem normalize_key_glue_refuted p key : p <> [] -> NormalizeKey (NkO [] p []) key = p ++ key.
Proof. intros H. unfold NormalizeKey. cbn [n_strip n_prepend n_delim is_nil]. destruct p; [congruence|]. reflexivity. Qed.
Theorem normalize_key_collision_refuted :
  let o := NkO [] [] (s2b "."%string) in
  NormalizeKey o (s2b "a/b"%string) = NormalizeKey o (s2b "a.b"%string) /\
  let o := NkO (s2b "x"%string) [] (s2b "."%string) in
  NormalizeKey o (s2b "x/a"%string) = NormalizeKey o (s2b "a"%string).
Proof. split; vm_compute; reflexivity. Qed.
