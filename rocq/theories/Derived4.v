(** Reported keys, views, copies, attributes. *)
From Coq Require Import List NArith Bool Arith Lia Permutation.
From Verif Require Import GoStr Utf8 Node NodeWf InsertProofs MatchProofs Trie TreeOps Spec Refine
  Climb ApiRefine Reach Effect Derived Derived2 Derived3.
Import ListNotations.
Open Scope nat_scope.

(** ** C12 *)
(** [chain s l n]: [l] are the nodes on the way from [s] down to [n] *)
Inductive chain : node -> list node -> node -> Prop :=
| chain_here n : chain n [n] n
| chain_kid n c l m : In c (nkids n) -> chain c l m -> chain n (n :: l) m.
Definition pieces (l : list node) : gostring := concat (map keyPiece l).

Lemma chain_ents s l m : chain s l m -> forall pre, In (pre ++ concat (map npath l), m) (ents pre s).
Proof.
  induction 1 as [n|n c l m Hc H IH]; intros pre.
  - cbn [map concat]. rewrite app_nil_r, ents_eq. now left.
  - rewrite ents_eq. right. apply in_flat_map. exists c. split; auto. cbn [map concat].
    rewrite app_assoc. apply IH.
Qed.
Lemma pieces_runes l : pieces l = of_runes (concat (map npath l)).
Proof.
  unfold pieces, keyPiece. induction l as [|n l IH]; auto. cbn [map concat]. now rewrite IH, of_runes_app.
Qed.

Theorem key_ascii rf hist t outs l n :
  t_run rf hist newTrie = Ok (t, outs) -> ascii_hist hist -> chain (root t) l n -> key n = pieces l.
Proof.
  intros E HA C. pose proof (chain_ents _ _ _ C []) as Hin. cbn in Hin.
  assert (I : forall k i, In (k, i) (ients [] (root t)) -> i_key i = k /\ ascii k = true).
  { apply (run_inv (fun l => forall k i, In (k, i) l -> i_key i = k /\ ascii k = true) (fun p => ascii p = true) rf)
      with (hist := hist) (t := newTrie) (outs := outs); auto.
    - intros p l0 l' Ef Hp.
      apply (eff_forall (fun k i => i_key i = k /\ ascii k = true) (fun p => ascii p = true)) with (p := p); auto.
      + intros k i fi K [H1 H2]. now rewrite (proj1 (K i)).
      + intros q id v Hq. cbn. now rewrite ascii_runes.
      + intros k0 k i (c & y & ->) [H H2]. split.
        * cbn. rewrite H, !app_length.
          match goal with |- firstn ?n _ = _ => replace n with (length k0) by lia end.
          rewrite firstn_app, Nat.sub_diag, firstn_all. cbn. now rewrite app_nil_r.
        * unfold ascii in *. rewrite forallb_app in H2. now apply andb_true_iff in H2.
    - apply newTrie_wf.
    - cbn. intros k0 i0 [X|[]]. inversion X. auto. }
  destruct (I (concat (map npath l)) (info_of n)) as [K1 K2]; [apply in_ients; eauto|].
  rewrite pieces_runes, ascii_of_runes by assumption. exact K1.
Qed.
(** leaf nodes report their full path exactly for every valid UTF-8 key *)
Definition valid_hist (hist : list (hdl * op)) : Prop :=
  Forall (fun ho => match stored (fst ho) (snd ho) with Some p => valid_utf8 p = true | None => True end) hist.
Theorem key_leaf rf hist t outs l n :
  t_run rf hist newTrie = Ok (t, outs) -> valid_hist hist -> chain (root t) l n -> isLeaf n = true ->
  key n = pieces l.
Proof.
  intros E HA C HL. pose proof (chain_ents _ _ _ C []) as Hin. cbn in Hin.
  assert (I : forall k i, In (k, i) (ients [] (root t)) -> t_leaf (i_type i) = true ->
              runes (i_key i) = k /\ valid_utf8 (i_key i) = true).
  { apply (run_inv (fun l => forall k i, In (k, i) l -> t_leaf (i_type i) = true -> runes (i_key i) = k /\ valid_utf8 (i_key i) = true)
             (fun p => valid_utf8 p = true) rf) with (hist := hist) (t := newTrie) (outs := outs); auto.
    - intros p l0 l' Ef Hp.
      apply (eff_forall (fun k i => t_leaf (i_type i) = true -> runes (i_key i) = k /\ valid_utf8 (i_key i) = true)
               (fun p => valid_utf8 p = true)) with (p := p); auto.
      + intros k i fi K H. destruct (K i) as (-> & _ & ->). exact H.
      + intros k v i H. unfold with_data. cbn [i_type i_key]. rewrite t_leaf_lor4. exact H.
      + intros k0 k i _ _ X. discriminate.
    - apply newTrie_wf.
    - cbn. intros k0 i0 [X|[]]. inversion X. discriminate. }
  destruct (I (concat (map npath l)) (info_of n)) as [K1 K2]; [apply in_ients; eauto| |].
  { now rewrite <- HL, isLeaf_bit. }
  rewrite pieces_runes, <- K1. symmetry. now apply valid_utf8_eq.
Qed.

(** ** C13 *)
Theorem distinct_keys h h' t p p' v t1 id1 old1 a :
  reached t -> valid_utf8 (full h p) = true -> valid_utf8 (full h' p') = true ->
  blank_free (full h p) -> blank_free (full h' p') -> full h p <> full h' p' ->
  Set_ h' t p' v = Ok (t1, id1, old1) ->
  t_get t (runes (full h p)) = Some a -> t_get t1 (runes (full h p)) = Some a.
Proof.
  intros R V V' B B' Hn E G. eapply set_frame; eauto. rewrite blank_free_replace by assumption.
  intros X. apply Hn. now apply valid_runes_inj.
Qed.

(** ** C14: SetEx keeps blanks *)
Theorem setex_get D rf h t path v :
  plain_reach D t -> D (hdelim h) -> op_plain D (full h) (OSetEx path v) ->
  exists t' old calls q, SetEx h t path v = Ok (t', old, calls) /\ Query (S rf) h t' path = Ok q /\
    q_data q = v.
Proof.
  intros R Hd OP. destruct (plain_reach_inv D t R) as [WT PA].
  destruct (insert_root_refines t (entries t) (full h path) v WT (abs_entries t))
    as (t' & ir & E & WT' & A' & O & _).
  assert (ES : SetEx h t path v = Ok (t', ir_old ir, ir_calls ir)) by (unfold SetEx; now rewrite E).
  assert (R' : plain_reach D t').
  { eapply (plain_more D rf h (OSetEx path v) t); eauto. cbn [t_step]. rewrite ES. reflexivity. }
  set (w := runes (full h path)) in *.
  assert (exists a, t_get t' w = Some a /\ a_has a = true /\ a_data a = v) as (a & G & Ha & Hv).
  { rewrite (abs_get _ _ _ A'), s_set_get, str_eqb_refl. eexists; split; [reflexivity|].
    destruct (sget (entries t) w); auto. }
  destruct (query_present D rf h t' path a R' Hd G) as (q & Q & Q1 & _).
  exists t', (ir_old ir), (ir_calls ir), q. split; auto. split; auto. now rewrite Q1, Ha.
Qed.

(** ** C16 *)
Definition nonempty (parts : list gostring) : list gostring := filter (fun p => negb (is_nil p)) parts.

Lemma join_loop_true d args :
  join_loop d true args = concat (map (fun p => delim_byte d :: p) (nonempty args)).
Proof. induction args as [|[|b a] args IH]; cbn; auto. now rewrite IH. Qed.
Lemma join_str_concat sep a rest :
  join_str (a :: rest) sep = a ++ concat (map (fun p => sep ++ p) rest).
Proof.
  revert a. induction rest as [|b rest IH]; intros a; cbn [map concat].
  - cbn. now rewrite app_nil_r.
  - change (join_str (a :: b :: rest) sep) with (a ++ sep ++ join_str (b :: rest) sep).
    rewrite IH. now rewrite <- !app_assoc.
Qed.
Lemma join_loop_false d args :
  join_loop d false args = join_str (nonempty args) [delim_byte d].
Proof.
  induction args as [|[|b a] args IH]; auto. cbn [join_loop is_nil app].
  unfold nonempty. cbn [filter is_nil negb]. fold (nonempty args).
  rewrite join_str_concat, join_loop_true. reflexivity.
Qed.
Theorem join_spec d args : Join d args = join_str (nonempty args) [delim_byte d].
Proof.
  induction args as [|a args IH]; auto. destruct args as [|b args].
  - destruct a; reflexivity.
  - change (Join d (a :: b :: args)) with
      (if is_nil a then Join d (b :: args) else join_loop d false (a :: b :: args)).
    destruct a as [|x a]; cbn [is_nil]; [exact IH|]. apply join_loop_false.
Qed.
Lemma nonempty_app a b : nonempty (a ++ b) = nonempty a ++ nonempty b.
Proof. apply filter_app. Qed.
Lemma join_str_app (a b : list gostring) sep :
  a <> [] -> b <> [] -> join_str (a ++ b) sep = join_str a sep ++ sep ++ join_str b sep.
Proof.
  revert b. induction a as [|x a IH]; intros b Ha Hb; [congruence|].
  destruct a as [|y a].
  - destruct b; [congruence|]. reflexivity.
  - cbn [app]. change (join_str (x :: y :: a ++ b) sep) with (x ++ sep ++ join_str ((y :: a) ++ b) sep).
    rewrite IH by (auto; discriminate).
    change (join_str (x :: y :: a) sep) with (x ++ sep ++ join_str (y :: a) sep).
    now rewrite <- !app_assoc.
Qed.
Lemma join_nil d parts : Join d parts = [] <-> nonempty parts = [].
Proof.
  rewrite join_spec. destruct (nonempty parts) as [|a l] eqn:E; cbn; [tauto|].
  assert (a <> []).
  { assert (X : In a (nonempty parts)) by (rewrite E; now left). apply filter_In in X.
    destruct X as [_ X]. now destruct a. }
  split; [|discriminate]. intros X. exfalso. destruct a; [congruence|]. destruct l; discriminate.
Qed.
(** empty parts do not matter; joining joined parts gives the same *)
Theorem join_assoc d a b : Join d [Join d a; Join d b] = Join d (a ++ b).
Proof.
  rewrite (join_spec d [_; _]), (join_spec d (a ++ b)), nonempty_app.
  unfold nonempty at 1. cbn [filter].
  destruct (nonempty a) as [|x l] eqn:Ea, (nonempty b) as [|y m] eqn:Eb.
  - rewrite (proj2 (join_nil d a) Ea), (proj2 (join_nil d b) Eb). reflexivity.
  - rewrite (proj2 (join_nil d a) Ea). cbn [is_nil negb app].
    assert (Join d b <> []) by (rewrite join_nil, Eb; discriminate).
    destruct (Join d b) eqn:Jb; [congruence|]. cbn [is_nil negb]. cbn [join_str].
    rewrite <- Jb, join_spec, Eb. reflexivity.
  - rewrite (proj2 (join_nil d b) Eb). cbn [is_nil negb]. rewrite app_nil_r.
    assert (Join d a <> []) by (rewrite join_nil, Ea; discriminate).
    destruct (Join d a) eqn:Ja; [congruence|]. cbn [is_nil negb]. cbn [join_str].
    rewrite <- Ja, join_spec, Ea. reflexivity.
  - assert (Na : Join d a <> []) by (rewrite join_nil, Ea; discriminate).
    assert (Nb : Join d b <> []) by (rewrite join_nil, Eb; discriminate).
    rewrite join_str_app by discriminate. rewrite <- Ea, <- Eb, <- !join_spec.
    destruct (Join d a) eqn:Ja; [congruence|]. destruct (Join d b) eqn:Jb; [congruence|]. reflexivity.
Qed.
Theorem join_skip d a b : Join d (a ++ [] :: b) = Join d (a ++ b).
Proof. rewrite !join_spec, !nonempty_app. reflexivity. Qed.
Theorem join_singleton d a : Join d [a] = a.
Proof. reflexivity. Qed.
(** exactly one delimiter between neighbours *)
Theorem join_split_parts d parts :
  (d < 128)%N -> nonempty parts <> [] ->
  Forall (fun p => ~ In d p) parts ->
  split_str (Join d parts) (enc1 d) = nonempty parts.
Proof.
  intros Hd Hne HF. rewrite join_spec.
  assert (Es : [delim_byte d] = enc1 d).
  { unfold delim_byte, enc1, is_scalar, enc1_valid. rewrite N.mod_small by lia.
    replace (d <? 0xD800)%N with true by (symmetry; apply N.ltb_lt; lia).
    replace (d <? 0x80)%N with true by (symmetry; apply N.ltb_lt; lia). reflexivity. }
  rewrite Es. apply split_join; [apply enc1_unbordered|assumption|].
  rewrite <- Es. apply Forall_forall. intros p Hp. apply filter_In in Hp. destruct Hp as [Hp _].
  rewrite Forall_forall in HF. specialize (HF p Hp). unfold delim_byte. rewrite N.mod_small by lia.
  clear - HF. induction p as [|b p IH]; auto. cbn. rewrite IH by (intros X; apply HF; now right).
  replace (d =? b)%N with false; auto. symmetry. apply N.eqb_neq. intros ->. apply HF. now left.
Qed.

(** ** C15 *)
Lemma full_join h p : full h p = Join (hdelim h) [hprefix h; p].
Proof.
  unfold full. destruct (hprefix h); [|reflexivity]. reflexivity.
Qed.
Lemma join1_join d pre args : join1 d pre args = Join d (pre :: args).
Proof.
  unfold join1. destruct pre as [|b pre]; cbn [is_nil].
  - rewrite !join_spec. reflexivity.
  - destruct args as [|a args]; [reflexivity|].
    rewrite join_loop_true, join_spec.
    change (nonempty ((b :: pre) :: a :: args)) with ((b :: pre) :: nonempty (a :: args)).
    now rewrite join_str_concat.
Qed.
Theorem view_path h ps p : full (withPrefix h ps) p = full h (Join (hdelim h) (ps ++ [p])).
Proof.
  rewrite !full_join. cbn [withPrefix hprefix hdelim]. rewrite join1_join.
  set (d := hdelim h). rewrite <- (join_singleton d p) at 1.
  rewrite join_assoc. rewrite <- (join_singleton d (hprefix h)) at 2.
  rewrite join_assoc. reflexivity.
Qed.
Theorem view_nested h a b : withPrefix (withPrefix h a) b = withPrefix h (a ++ b).
Proof.
  unfold withPrefix. cbn. f_equal. rewrite !join1_join.
  change (hprefix h :: a ++ b) with ((hprefix h :: a) ++ b).
  rewrite <- (join_assoc _ (hprefix h :: a) b).
  change (Join (hdelim h) (hprefix h :: a) :: b) with ([Join (hdelim h) (hprefix h :: a)] ++ b).
  rewrite <- join_assoc. now rewrite join_singleton.
Qed.

(** an operation with its path replaced *)
Definition on_path (f : gostring -> gostring) (o : op) : op :=
  match o with
  | OSet p v => OSet (f p) v
  | OSetEx p v => OSetEx (f p) v
  | OSetNode p v tag dc => OSetNode (f p) v tag dc
  | OSetEmpty p => OSetEmpty (f p)
  | OUpdate p g => OUpdate (f p) g
  | OSetWith p v g => OSetWith (f p) v g
  | OSetComment p x y => OSetComment (f p) x y
  | OSetTag p v => OSetTag (f p) v
  | ORemove p => ORemove (f p)
  | OGet p => OGet (f p)
  | OMustGet p => OMustGet (f p)
  | OQuery p => OQuery (f p)
  | OHas p => OHas (f p)
  | OSearch p => OSearch (f p)
  | OLocate p => OLocate (f p)
  | OGetEx p => OGetEx (f p)
  | OGetDesc p => OGetDesc (f p)
  | OGetComment p => OGetComment (f p)
  | OGetTag p => OGetTag (f p)
  end.
Theorem view_step rf h ps t o :
  t_step rf (withPrefix h ps) t o = t_step rf h t (on_path (fun p => Join (hdelim h) (ps ++ [p])) o).
Proof.
  assert (S : forall w, search rf (withPrefix h ps) t w = search rf h t w) by reflexivity.
  destruct o; cbn [t_step on_path];
    unfold Set_, SetEx, SetNode, SetEmpty, Update, SetComment, SetTag, Remove, RemoveEx, Get, MustGet,
      Query, Has, Search_, Locate, GetEx, GetDesc, GetComment, GetTag, getNodeFast, Query;
    rewrite view_path; rewrite ?S; reflexivity.
Qed.
(** a path relative to a prefixed view and the same full path on the original store *)
Theorem view_prefix h ps p :
  hprefix h = [] -> full (withPrefix h ps) p = Join (hdelim h) (ps ++ [p]).
Proof. intros E. rewrite view_path. unfold full. now rewrite E. Qed.
