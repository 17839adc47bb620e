(** GetR, GetM and To on the tree in memory: alone and beside goroutines that overwrite values. *)
From Coq Require Import String.
From Coq Require Import List NArith Bool Arith Lia.
From Verif Require Import GoStr Utf8 Node NodeWf InsertProofs MatchProofs Trie TreeOps Spec Refine Climb ApiRefine Reach Effect
  Derived Derived2 Derived3 Derived4 Derived5 Heap HeapProofs HeapWalk HeapRace HeapGet HeapGetProofs HeapSee HeapSeeProofs HeapFair
  Cvter HeapExport.
Import ListNotations.
Open Scope nat_scope.
Open Scope list_scope.

(** the tree with the value [f a] in the node at [a], and marked as having data where [y a] *)
Fixpoint revalue (f : nat -> gval) (y : nat -> bool) (n : node) : node :=
  mkNode (nid n) (npath n) (npathS n) (map (revalue f y) (nkids n)) (f (nid n)) (ndesc n) (ncmt n) (ntag n)
    (if y (nid n) then N.lor (ntype n) NTData else ntype n).
Lemma revalue_eq f y n : revalue f y n =
  mkNode (nid n) (npath n) (npathS n) (map (revalue f y) (nkids n)) (f (nid n)) (ndesc n) (ncmt n) (ntag n)
    (if y (nid n) then N.lor (ntype n) NTData else ntype n).
Proof. now destruct n. Qed.
Lemma rv_id f y n : nid (revalue f y n) = nid n. Proof. now rewrite revalue_eq. Qed.
Lemma rv_path f y n : npath (revalue f y n) = npath n. Proof. now rewrite revalue_eq. Qed.
Lemma rv_pathS f y n : npathS (revalue f y n) = npathS n. Proof. now rewrite revalue_eq. Qed.
Lemma rv_kids f y n : nkids (revalue f y n) = map (revalue f y) (nkids n). Proof. now rewrite revalue_eq. Qed.
Lemma rv_data f y n : ndata (revalue f y n) = f (nid n). Proof. now rewrite revalue_eq. Qed.
Lemma rv_branch f y n : isBranch (revalue f y n) = isBranch n. Proof. rewrite revalue_eq. unfold isBranch. cbn [ntype]. destruct (y (nid n)); [|reflexivity]. now rewrite land_lor_data. Qed.
Lemma rv_walk f y n : walk (revalue f y n) = map (revalue f y) (walk n).
Proof.
  induction n as [n IH] using node_ind'. rewrite (walk_eq n), (walk_eq (revalue f y n)), rv_kids. cbn [map]. f_equal.
  rewrite map_flat_map, !flat_map_concat_map, map_map. f_equal. apply map_ext_in. rewrite Forall_forall in IH. exact IH.
Qed.

(** ** searching finds the same nodes *)
Section Search.
Variable f : nat -> gval.
Variable y : nat -> bool.
Notation fi := (revalue f y).
Definition rv_mres (r : mres) : mres := MRes (m_matched r) (m_partial r) (option_map fi (m_child r)) (option_map fi (m_parent r)) (m_kv r).
Definition rv_exit (e : rexit) : rexit := match e with RReturn r => RReturn (rv_mres r) | RBreak a b c d e g => RBreak a b c d e g end.
Definition rv_res {A} (g : A -> A) (x : res A) : res A := do y <- x; Ok (g y).
Lemma rv_retriever rf d s word pn : forall ch src dst lrd kv,
  retriever rf d (fi s) word (option_map fi pn) ch src dst lrd kv = rv_res rv_exit (retriever rf d s word pn ch src dst lrd kv).
Proof.
  induction rf as [|rf IH]; intros ch src dst lrd kv; cbn [retriever]; [reflexivity|]. rewrite rv_path, rv_kids, map_length.
  destruct (lrd && (ch =? star)%N). { destruct (extractor _ _ _) as [[id s1] e1]. reflexivity. }
  destruct (lrd && (ch =? colon)%N); [|reflexivity].
  destruct (extractor (S src) _ _) as [[id s1] e1]. destruct (extractor dst _ _) as [[v d1] e2].
  destruct e1; [destruct e2; reflexivity|]. destruct e2; cbn [negb]; [reflexivity|].
  destruct (subscan _ _ _ _ _ _ _) as [[[s2 d2] l2] c2].
  destruct (_ && _); [reflexivity|]. destruct (_ && _); [reflexivity|]. apply IH.
Qed.
Lemma rv_after d s word pn src mt pt : after_loop d (fi s) word (option_map fi pn) src mt pt =
  (let '(a, b, c, e) := after_loop d s word pn src mt pt in (a, b, option_map fi c, option_map fi e)).
Proof.
  unfold after_loop. cbv zeta. rewrite rv_path. destruct (_ && _); [reflexivity|]. destruct (_ && _); [reflexivity|].
  destruct (_ && _); [reflexivity|]. now destruct mt.
Qed.
Lemma rv_matchR rf d : forall n word lrd pn kv,
  matchR rf d (fi n) word lrd (option_map fi pn) kv = rv_res rv_mres (matchR rf d n word lrd pn kv).
Proof.
  induction n as [n IH] using node_ind'. intros word lrd pn kv. rewrite !HeapGetProofs.matchR_eq. cbv zeta. rewrite rv_path, rv_kids.
  destruct (length word =? 0); [reflexivity|]. destruct (scan d (npath n) word 0 lrd) as [i lrd1]. rewrite rv_retriever.
  replace (if i <? Nat.min (length (npath n)) (length word)
           then rv_res rv_exit (retriever rf d n word pn (nth i (npath n) 0%N) i i lrd1 kv) else Ok (RBreak i 0 lrd1 false false kv))
    with (rv_res rv_exit (if i <? Nat.min (length (npath n)) (length word)
           then retriever rf d n word pn (nth i (npath n) 0%N) i i lrd1 kv else Ok (RBreak i 0 lrd1 false false kv))) by now destruct (i <? _).
  destruct (if i <? _ then _ else _) as [[q|src dst lrd2 mt pt kv2]| |]; cbn [bind rv_res rv_exit]; try reflexivity.
  rewrite rv_after. destruct (after_loop d n word pn src mt pt) as [[[ma pa] chd] par].
  destruct (_ <? length word); [|reflexivity].
  assert (LP : forall ks, incl ks (nkids n) -> forall last,
      (fix loop (cs : list node) (last : mres) : res mres :=
       match cs with
       | [] => Ok last
       | k :: cs' => do r <- matchR rf d k (skipn (if dst =? 0 then Nat.min (length (npath n)) (length word) else dst) word) lrd2 (Some (fi n)) (m_kv last);
                     if m_matched r || m_partial r then Ok r else loop cs' r
       end) (map fi ks) (rv_mres last) =
      rv_res rv_mres ((fix loop (cs : list node) (last : mres) : res mres :=
       match cs with
       | [] => Ok last
       | k :: cs' => do r <- matchR rf d k (skipn (if dst =? 0 then Nat.min (length (npath n)) (length word) else dst) word) lrd2 (Some n) (m_kv last);
                     if m_matched r || m_partial r then Ok r else loop cs' r
       end) ks last)).
  { rewrite Forall_forall in IH. induction ks as [|k ks IHk]; intros I last; [reflexivity|]. cbn [map].
    change (Some (fi n)) with (option_map fi (Some n)). rewrite IH by (apply I; now left). cbn [rv_mres m_kv].
    destruct (matchR rf d k _ lrd2 (Some n) (m_kv last)) as [r1| |]; cbn [bind rv_res]; try reflexivity.
    cbn [rv_mres m_matched m_partial]. destruct (m_matched r1 || m_partial r1); [reflexivity|].
    exact (IHk (fun y Hy => I y (or_intror Hy)) r1). }
  specialize (LP (nkids n) (incl_refl _) (MRes ma pa chd par kv2)). destruct (nkids n) as [|k0 ks0]; [reflexivity|]. exact LP.
Qed.
Definition rv_sres (r : Trie.sres) : Trie.sres := Trie.SRes (option_map fi (Trie.s_node r)) (option_map fi (Trie.s_parent r)) (Trie.s_partial r) (Trie.s_kv r).
Lemma rv_climb rf d R nx : forall fuel w kv, climb rf fuel d (Tr (fi R) nx) w kv = rv_res rv_sres (climb rf fuel d (Tr R nx) w kv).
Proof.
  induction fuel as [|fuel IH]; intros w kv; cbn [climb]; [reflexivity|].
  destruct (2 <? length (split_str w (enc1 d))); [|reflexivity]. unfold probe. cbn [root].
  change (@None node) with (option_map fi None). rewrite rv_matchR. cbn [option_map].
  destruct (matchR rf d R _ false None kv) as [q| |]; cbn [bind rv_res]; try reflexivity. cbn [rv_mres m_matched m_partial m_kv].
  destruct (m_matched q || m_partial q); [reflexivity|apply IH].
Qed.
Lemma rv_search rf h R nx w : search rf h (Tr (fi R) nx) w = rv_res rv_sres (search rf h (Tr R nx) w).
Proof.
  unfold search. cbv zeta. unfold probe. cbn [root]. change (@None node) with (option_map fi None). rewrite rv_matchR. cbn [option_map].
  destruct (matchR rf (hdelim h) R _ false None []) as [q| |]; cbn [bind rv_res]; try reflexivity. cbn [rv_mres m_matched m_partial m_kv m_child m_parent].
  destruct (m_matched q || m_partial q); [reflexivity|]. destruct (hmode h); try reflexivity.
  destruct (contains _ w); [apply rv_climb|reflexivity].
Qed.
End Search.

(** ** what a walk takes *)
(** the values of the node [n] that may be read *)
Definition okv (may : nat -> gval -> Prop) (n : node) (v : gval) : Prop := v = ndata n \/ may (nid n) v.
Definition lets (flt : option (shown -> bool)) (n : node) (w : gval) : bool :=
  match flt with None => true | Some f => f (Shown (nid n) (npathS n) (npath n) (isBranch n) w) end.
Definition took_as (d : rune) (flt : option (shown -> bool)) (n : node) (v w : gval) : option item :=
  if exported d n && lets flt n w then Some (Item (npathS n) (npath n) v) else None.
Definition took (may : nat -> gval -> Prop) (d : rune) (flt : option (shown -> bool)) (n : node) (x : option item) : Prop :=
  exists v w, okv may n v /\ okv may n w /\ x = took_as d flt n v w.
Lemma take_polite h0 may d flt n : repr h0 n -> polite h0 may (took may d flt n) (p_take d flt (nid n)).
Proof.
  intros R. pose proof R as R0. apply repr_eq in R. destruct R as [(s & E & Ft & _) _]. destruct Ft as (P1 & P2 & P3 & _ & _ & _ & P7). unfold p_take.
  apply pol_node with s; auto. intros t1 (_ & A1 & _) _. apply pol_node with s; auto. intros t2 (A2 & _) _.
  assert (K1 : hpathS t1 = npathS n) by congruence. assert (K2 : hpath t2 = npath n) by congruence. rewrite K1, K2.
  assert (NO : exported d n = false -> polite h0 may (took may d flt n) (Ret None)).
  { intros X. constructor. exists (ndata n), (ndata n). split; [now left|]. split; [now left|]. unfold took_as. now rewrite X. }
  destruct (simpleEndsWith (npathS n) d) eqn:SE. { apply NO. unfold exported, Node.key. now rewrite SE. }
  apply pol_node with s; auto. intros t3 A3 _. rewrite (alike_branch _ (nid n) s t3 A3).
  replace (isBranch (view (nid n) s)) with (isBranch n) by (unfold isBranch, view; cbn; now rewrite P7).
  destruct (isBranch n) eqn:B. { apply NO. unfold exported. rewrite B. apply andb_false_r. }
  assert (EX : exported d n = true) by (unfold exported, Node.key; now rewrite SE, B).
  apply polite_bind with (Q := fun ok => exists w, okv may n w /\ ok = lets flt n w).
  - destruct flt as [g|]; [|constructor; exists (ndata n); split; [now left|reflexivity]].
    eapply polite_bind; [now apply show_polite|]. intros x (X1 & X2 & X3 & X4 & X5). constructor. exists (sw_data x). split; [exact X5|].
    cbn [lets]. destruct x; cbn in *; now subst.
  - intros ok (w & W & ->). destruct (lets flt n w) eqn:L.
    + apply pol_node with s; auto. intros t4 _ D4. constructor. exists (hdata t4), w. split; [unfold okv; now rewrite <- P3|]. split; [exact W|].
      unfold took_as. now rewrite EX, L.
    + constructor. exists (ndata n), w. split; [now left|]. split; [exact W|]. unfold took_as. now rewrite EX, L.
Qed.
Lemma pick_polite h0 may d flt : hwf h0 -> forall f n, repr h0 n -> depth n <= f ->
  polite h0 may (Forall2 (took may d flt) (walk n)) (p_pick d flt f (nid n)).
Proof.
  intros W. induction f as [|f IH]; intros n R D; [destruct n; cbn in D; lia|]. pose proof R as R0.
  apply repr_eq in R. destruct R as [(s & E & Ft & K) Rk]. cbn [p_pick].
  eapply polite_bind; [now apply take_polite|]. intros x Hx. apply pol_node with s; auto. intros t (_ & _ & -> & _) _.
  pose proof (kids_len h0 _ s _ W E K) as KL. rewrite map_length in KL. unfold kids_of in K. rewrite KL in *.
  set (r := sl_arr (hkids s)) in *. rewrite walk_eq.
  assert (LP : forall ks pre, nkids n = pre ++ ks ->
    polite h0 may (Forall2 (took may d flt) (flat_map walk ks)) (p_picks (p_pick d flt f) r (length pre) (length ks))).
  { induction ks as [|k ks IHk]; intros pre Ek; cbn [length p_picks flat_map]; [constructor; constructor|].
    assert (NE : nth_error (ha h0 r) (length pre) = Some (nid k)).
    { rewrite <- (firstn_skipn (length (nkids n)) (ha h0 r)), K, Ek, map_app, <- app_assoc.
      rewrite nth_error_app2 by (rewrite map_length; lia). rewrite map_length, Nat.sub_diag. reflexivity. }
    assert (Hk : In k (nkids n)) by (rewrite Ek; apply in_app_iff; right; now left).
    rewrite Forall_forall in Rk. pose proof (depth_kid _ _ Hk). apply pol_elem with (nid k); auto.
    eapply polite_bind; [apply IH; auto; lia|]. intros l1 H1.
    specialize (IHk (pre ++ [k])). rewrite <- app_assoc, app_length in IHk. cbn [app length] in IHk. rewrite Nat.add_1_r in IHk.
    eapply polite_bind; [now apply IHk|]. intros l2 H2. constructor. now apply Forall2_app. }
  specialize (LP (nkids n) [] eq_refl). cbn [length] in LP. eapply polite_bind; [exact LP|]. intros l Hl. constructor. now constructor.
Qed.

(** ** as a tree with other values *)
Definition old_of (R : node) (a : nat) : gval := match find (fun n => nid n =? a) (walk R) with Some n => ndata n | None => GNil end.
Lemma find_in (l : list node) n : NoDup (map nid l) -> In n l -> find (fun m => nid m =? nid n) l = Some n.
Proof.
  induction l as [|m l IH]; [easy|]. cbn. intros ND. inversion ND as [|? ? NI ND']; subst. intros [->|H]; [now rewrite Nat.eqb_refl|].
  destruct (Nat.eqb_spec (nid m) (nid n)) as [X|_]; [|auto]. exfalso. apply NI. rewrite X. now apply in_map.
Qed.
Lemma old_of_in R n : NoDup (map nid (walk R)) -> In n (walk R) -> old_of R (nid n) = ndata n.
Proof. intros ND H. unfold old_of. now rewrite find_in. Qed.
(** in each node [f] has the old value or one that may be written there *)
Definition allowed (may : nat -> gval -> Prop) (R : node) (f : nat -> gval) : Prop := forall n, In n (walk R) -> okv may n (f (nid n)).
Lemma old_allowed may R : NoDup (map nid (walk R)) -> allowed may R (old_of R).
Proof. intros ND n H. left. now apply old_of_in. Qed.
Lemma sub_walk R m : sub R m -> incl (walk m) (walk R).
Proof.
  induction 1 as [|n k m Hk _ IH]; [apply incl_refl|]. intros x Hx. rewrite (walk_eq n). right. apply in_flat_map. exists k. auto.
Qed.
Lemma NoDup_app_r {A} (l r : list A) : NoDup (l ++ r) -> NoDup r.
Proof. induction l as [|a l IH]; [easy|]. cbn. intros H. inversion H; auto. Qed.
Lemma NoDup_app_l {A} (l r : list A) : NoDup (l ++ r) -> NoDup l.
Proof. intros H. induction l as [|a l IH]; [constructor|]. cbn in H. inversion H; subst. constructor; auto. intros X. apply H2. apply in_app_iff. now left. Qed.
Lemma sub_nodup R m : sub R m -> NoDup (map nid (walk R)) -> NoDup (map nid (walk m)).
Proof.
  induction 1 as [|n k m Hk _ IH]; [easy|]. rewrite (walk_eq n). cbn [map]. intros ND. inversion ND as [|? ? _ ND']; subst. apply IH.
  apply in_split in Hk. destruct Hk as (l & r & Ek). rewrite Ek, flat_map_app, map_app in ND'. apply NoDup_app_r in ND'. cbn in ND'.
  rewrite map_app in ND'. now apply NoDup_app_l in ND'.
Qed.
Lemma taken may d flt R : NoDup (map nid (walk R)) -> forall ns l, incl ns (walk R) -> NoDup (map nid ns) -> Forall2 (took may d flt) ns l ->
  exists f g, allowed may R f /\ allowed may R g /\ l = map (fun n => took_as d flt n (f (nid n)) (g (nid n))) ns.
Proof.
  intros NR ns l I ND F. induction F as [|n x ns l (v & w & V & W & ->) F IH].
  - exists (old_of R), (old_of R). split; [now apply old_allowed|]. split; [now apply old_allowed|reflexivity].
  - cbn in ND. inversion ND as [|? ? NI ND']; subst. destruct IH as (f & g & Af & Ag & ->); [intros y Hy; apply I; now right|exact ND'|].
    assert (UP : forall (q : nat -> gval) z, allowed may R q -> okv may n z -> allowed may R (fun a => if a =? nid n then z else q a)).
    { intros q z Aq Z m Hm. destruct (Nat.eqb_spec (nid m) (nid n)) as [E|_]; [|now apply Aq].
      assert (m = n) as ->; [|exact Z]. pose proof (find_in (walk R) m NR Hm) as X. pose proof (find_in (walk R) n NR (I n (or_introl eq_refl))) as Y.
      rewrite E in X. congruence. }
    exists (fun a => if a =? nid n then v else f a), (fun a => if a =? nid n then w else g a).
    split; [auto|]. split; [auto|]. cbn [map]. rewrite Nat.eqb_refl. f_equal. apply map_ext_in. intros m Hm.
    destruct (Nat.eqb_spec (nid m) (nid n)) as [E|_]; [|reflexivity]. exfalso. apply NI. rewrite <- E. now apply in_map.
Qed.
(** the filter, looking at the tree with the values [g] *)
Definition opts_of (g : nat -> gval) (o : hopts) : mopts :=
  MOpts (ho_keep o) (ho_noflat o) (option_map (fun flt n => flt (Shown (nid n) (npathS n) (npath n) (isBranch n) (g (nid n)))) (ho_filter o)).
Lemma passes_lets f y g o n : passes (opts_of g o) (revalue f y n) = lets (ho_filter o) n (g (nid n)).
Proof.
  unfold passes, opts_of, lets. cbn. destruct (ho_filter o) as [q|]; [|reflexivity]. cbn.
  now rewrite rv_id, rv_pathS, rv_path, rv_branch.
Qed.
Lemma exported_rv d f y n : exported d (revalue f y n) = exported d n.
Proof. unfold exported, Node.key. now rewrite rv_pathS, rv_branch. Qed.
Lemma fold_root d o pre1 f y g ns : forall m, foldM (root_item (ho_keep o) pre1) (map (fun n => took_as d (ho_filter o) n (f (nid n)) (g (nid n))) ns) m =
  foldM (getM_root_cb d (opts_of g o) pre1) (map (revalue f y) ns) m.
Proof.
  induction ns as [|n ns IH]; intros m; [reflexivity|]. cbn [map foldM].
  replace (getM_root_cb d (opts_of g o) pre1 m (revalue f y n)) with (root_item (ho_keep o) pre1 m (took_as d (ho_filter o) n (f (nid n)) (g (nid n)))).
  - destruct (root_item _ _ _ _); cbn [bind]; auto.
  - unfold getM_root_cb, took_as. rewrite exported_rv, passes_lets. destruct (_ && _); [|reflexivity]. cbn [root_item it_key it_data opts_of o_keep].
    unfold Node.key. now rewrite rv_pathS, rv_data.
Qed.
Lemma fold_path d o pre prelen f y g ns : forall m,
  foldM (path_item d (ho_keep o) pre prelen) (map (fun n => took_as d (ho_filter o) n (f (nid n)) (g (nid n))) ns) m =
  foldM (getM_cb d (opts_of g o) pre prelen) (map (revalue f y) ns) m.
Proof.
  induction ns as [|n ns IH]; intros m; [reflexivity|]. cbn [map foldM].
  replace (getM_cb d (opts_of g o) pre prelen m (revalue f y n)) with (path_item d (ho_keep o) pre prelen m (took_as d (ho_filter o) n (f (nid n)) (g (nid n)))).
  - destruct (path_item _ _ _ _ _ _); cbn [bind]; auto.
  - unfold getM_cb, took_as. rewrite exported_rv, passes_lets. destruct (_ && _); [|reflexivity]. cbn [path_item it_key it_data it_frag opts_of o_keep].
    unfold Node.key. now rewrite rv_pathS, rv_data, rv_path.
Qed.
Lemma fold_put d f y g ns : put_items (map (fun n => took_as d None n (f (nid n)) (g (nid n))) ns) = put_walk d (map (revalue f y) ns).
Proof.
  unfold put_items, put_walk. generalize (@nil (gostring * gval)). induction ns as [|n ns IH]; intros m; [reflexivity|]. cbn [map fold_left].
  rewrite IH. f_equal. rewrite exported_rv. unfold took_as, lets. rewrite andb_true_r. destruct (exported d n); [|reflexivity].
  unfold Node.key. now rewrite rv_pathS, rv_data.
Qed.

(** ** the exports beside goroutines that overwrite values *)
Section Exports.
Variables (h0 : heap) (may : nat -> gval -> Prop) (R : node) (nx : nat).
Hypothesis W : hwf h0.
Hypothesis RR : repr h0 R.
Hypothesis ND : NoDup (map nid (walk R)).
Variables (rf dep : nat).
Hypothesis D : depth R <= dep.
Variable h : hdl.

(** the parts of [Locate] that the exports use *)
Definition located (n : option node) (partial : bool) : option nat * bool * bool :=
  (option_map nid n, partial, match n with Some _ => negb partial | None => false end).
Lemma locate_polite path r : search rf h (Tr R nx) (full h path) = Ok r ->
  polite h0 may (eq (located (Trie.s_node r) (Trie.s_partial r))) (p_locate rf dep h (nid R) path).
Proof.
  intros S. unfold p_locate. eapply reads_polite; [apply search_reads with (nx := nx); eauto|]. unfold sids. cbn [hs_node hs_partial].
  destruct (Trie.s_node r) as [n|] eqn:N; cbn [option_map]; [|now constructor].
  pose proof (sub_repr _ _ _ RR (search_child _ _ _ _ _ _ _ S N)) as Rn. apply repr_eq in Rn. destruct Rn as [(s & E & _) _].
  apply pol_node with s; auto. intros. now constructor.
Qed.
Lemma pick_sub d flt n : sub R n -> polite h0 may (fun l => exists f g, allowed may R f /\ allowed may R g /\
    l = map (fun n => took_as d flt n (f (nid n)) (g (nid n))) (walk n)) (p_pick d flt dep (nid n)).
Proof.
  intros SB. eapply polite_mono; [|apply pick_polite; [exact W|now apply sub_repr with R|pose proof (sub_depth _ _ SB); lia]].
  intros l F. apply taken; auto; [now apply sub_walk|now apply sub_nodup with R].
Qed.
Lemma GetR_rv f y path defs : GetR rf h (Tr (revalue f y R) nx) path defs =
  if is_root_path path then Ok (Some (put_walk (hdelim h) (map (revalue f y) (walk R))))
  else do r <- search rf h (Tr R nx) (full h path);
       match Trie.s_node r with
       | Some n => Ok (Some (put_walk (hdelim h) (map (revalue f y) (walk n))))
       | None => if Trie.s_partial r then Panic else Ok (last_default None defs)
       end.
Proof.
  unfold GetR. cbn [root]. rewrite rv_walk. destruct (is_root_path path); [reflexivity|]. unfold Locate. rewrite rv_search.
  destruct (search rf h (Tr R nx) (full h path)) as [r| |]; cbn [bind rv_res]; try reflexivity. cbn [rv_sres Trie.s_node Trie.s_partial Trie.s_kv].
  destruct (Trie.s_node r) as [n|]; cbn [option_map bind].
  - rewrite rv_walk. now destruct (Trie.s_partial r).
  - now destruct (Trie.s_partial r).
Qed.
Lemma GetM_rv order f y path o : GetM rf order h (Tr (revalue f y R) nx) path o =
  let fin m := Some (if o_noflat o then splitCompactKeys (hdelim h) (order m) else m) in
  if is_root_path path then
    do m <- foldM (getM_root_cb (hdelim h) o (if is_nil (hprefix h) then 0 else length (hprefix h) + 2)) (map (revalue f y) (walk R)) []; Ok (fin m)
  else do r <- search rf h (Tr R nx) (full h path);
       match Trie.s_node r with
       | Some n => do m <- foldM (getM_cb (hdelim h) o (split_str (Join (hdelim h) [hprefix h; path]) (enc1 (hdelim h))) (getM_prelen h path)) (map (revalue f y) (walk n)) []; Ok (fin m)
       | None => if Trie.s_partial r then Panic else Ok None
       end.
Proof.
  unfold GetM. cbv zeta. cbn [root]. rewrite rv_walk. destruct (is_root_path path); [reflexivity|]. unfold Locate. rewrite rv_search.
  destruct (search rf h (Tr R nx) (full h path)) as [r| |]; cbn [bind rv_res]; try reflexivity. cbn [rv_sres Trie.s_node Trie.s_partial Trie.s_kv].
  destruct (Trie.s_node r) as [n|]; cbn [option_map bind].
  - rewrite rv_walk. now destruct (Trie.s_partial r).
  - now destruct (Trie.s_partial r).
Qed.
(** the path is searched for without running out of steps *)
Definition searched (path : gostring) : Prop := is_root_path path = true \/ exists r, search rf h (Tr R nx) (full h path) = Ok r.
Lemma GetR_polite path defs : searched path ->
  polite h0 may (fun x => exists f, allowed may R f /\ forall y, x = GetR rf h (Tr (revalue f y R) nx) path defs) (p_GetR rf dep h (nid R) path defs).
Proof.
  intros SE. unfold p_GetR. destruct (is_root_path path) eqn:RP.
  { eapply polite_bind; [apply pick_sub; constructor|]. intros l (f & g & Af & _ & ->). constructor. exists f. split; [exact Af|].
    intros y. now rewrite GetR_rv, RP, (fold_put _ _ y). }
  destruct SE as [X|(r & S)]; [congruence|]. eapply polite_bind; [now apply locate_polite with (r := r)|]. intros x <-. unfold located.
  assert (G : forall f y, GetR rf h (Tr (revalue f y R) nx) path defs = match Trie.s_node r with
       | Some n => Ok (Some (put_walk (hdelim h) (map (revalue f y) (walk n))))
       | None => if Trie.s_partial r then Panic else Ok (last_default None defs) end).
  { intros f y. rewrite GetR_rv, RP, S. reflexivity. }
  destruct (Trie.s_node r) as [n|] eqn:N; cbn [option_map].
  - replace (negb (Trie.s_partial r) || Trie.s_partial r) with true by now destruct (Trie.s_partial r).
    eapply polite_bind; [apply pick_sub, (search_child _ _ _ _ _ _ _ S N)|]. intros l (f & g & Af & _ & ->). constructor. exists f.
    split; [exact Af|]. intros y. now rewrite G, (fold_put _ _ y).
  - cbn [orb]. destruct (Trie.s_partial r); constructor; exists (old_of R); (split; [now apply old_allowed|]); intros y; now rewrite G.
Qed.
Lemma GetM_polite order path o : searched path ->
  polite h0 may (fun x => exists f g, allowed may R f /\ allowed may R g /\ forall y, x = GetM rf order h (Tr (revalue f y R) nx) path (opts_of g o))
    (p_GetM order rf dep h (nid R) path o).
Proof.
  intros SE. unfold p_GetM. destruct (is_root_path path) eqn:RP.
  { eapply polite_bind; [apply pick_sub; constructor|]. intros l (f & g & Af & Ag & ->). constructor. exists f, g. split; [exact Af|].
    split; [exact Ag|]. intros y. now rewrite GetM_rv, RP, (fold_root _ _ _ _ y). }
  destruct SE as [X|(r & S)]; [congruence|]. eapply polite_bind; [now apply locate_polite with (r := r)|]. intros x <-. unfold located.
  destruct (Trie.s_node r) as [n|] eqn:N; cbn [option_map].
  - replace (negb (Trie.s_partial r) || Trie.s_partial r) with true by now destruct (Trie.s_partial r).
    eapply polite_bind; [apply pick_sub, (search_child _ _ _ _ _ _ _ S N)|]. intros l (f & g & Af & Ag & ->). constructor. exists f, g.
    split; [exact Af|]. split; [exact Ag|]. intros y. rewrite GetM_rv, RP, S. cbn [bind]. rewrite N, (fold_path _ _ _ _ _ y). reflexivity.
  - cbn [orb]. destruct (Trie.s_partial r) eqn:PA; constructor; exists (old_of R), (old_of R);
      (split; [now apply old_allowed|]); (split; [now apply old_allowed|]); intros y; rewrite GetM_rv, RP, S; cbn [bind]; now rewrite N, PA.
Qed.
Lemma To_polite order path o : searched path ->
  polite h0 may (fun x => exists f g, allowed may R f /\ allowed may R g /\ forall y, x = To rf order h (Tr (revalue f y R) nx) path (opts_of g o))
    (p_To order rf dep h (nid R) path o).
Proof.
  intros SE. unfold p_To. eapply polite_bind; [now apply GetM_polite|]. intros x (f & g & Af & Ag & EQ). unfold To.
  destruct x as [[m|]| |].
  - constructor. exists f, g. split; [exact Af|]. split; [exact Ag|]. intros y. now rewrite <- EQ.
  - eapply polite_bind; [now apply GetR_polite|]. intros z (f2 & Af2 & EQ2). constructor. exists f, g. split; [exact Af|]. split; [exact Ag|].
    intros y. rewrite <- EQ. cbn [bind]. replace (GetR rf h (Tr (revalue f y R) nx) path []) with z; [reflexivity|].
    rewrite (EQ2 y). specialize (EQ y). rewrite !GetR_rv. rewrite GetM_rv in EQ. cbv zeta in EQ. destruct (is_root_path path).
    { match type of EQ with _ = bind ?x _ => destruct x end; cbn [bind] in EQ; discriminate EQ. }
    destruct (search rf h (Tr R nx) (full h path)) as [r| |]; cbn [bind] in *; try reflexivity.
    destruct (Trie.s_node r) as [n|]; [match type of EQ with _ = bind ?x _ => destruct x end; cbn [bind] in EQ; discriminate EQ|reflexivity].
  - constructor. exists f, g. split; [exact Af|]. split; [exact Ag|]. intros y. now rewrite <- EQ.
  - constructor. exists f, g. split; [exact Af|]. split; [exact Ag|]. intros y. now rewrite <- EQ.
Qed.
End Exports.

(** goroutines that set keys and goroutines that export *)
Inductive told := Done | Told (x : res (option gmap)).
Definition put_all grow rt (job : list (gostring * gval)) : prog told := let* _ := p_sets grow rt job in Ret Done.
Definition exporting (order : gmap -> gmap) rf dep rt (g : hdl * ask) : prog told :=
  let* x := p_ask order rf dep (fst g) rt (snd g) in Ret (Told x).
(** the answer on a tree; a filter looks at the values [g] *)
Definition reply_of (order : gmap -> gmap) rf (t : tr) (g : nat -> gval) (q : hdl * ask) : res (option gmap) :=
  match snd q with
  | AskR p defs => GetR rf (fst q) t p defs
  | AskM p o => GetM rf order (fst q) t p (opts_of g o)
  | AskTo p o => To rf order (fst q) t p (opts_of g o)
  end.
Lemma walk_ids_nodup R nx : wf_tr (Tr R nx) -> NoDup (map nid (walk R)).
Proof.
  intros WT. rewrite (walk_ents [] R), map_map. pose proof (proj1 (proj2 WT)) as Q. unfold eids, ients in Q. rewrite map_map in Q. exact Q.
Qed.
Lemma race_export grow order rf h0 R nx jobs asks dep sch : tree_in h0 R -> depth R <= dep ->
  (forall job k v, In job jobs -> In (k, v) job -> exists a, key_at R k a) ->
  (forall h q, In (h, q) asks -> searched R nx rf h (ask_path q)) ->
  let (ps, m) := schedule sch (map (put_all grow (nid R)) jobs ++ map (exporting order rf dep (nid R)) asks) h0 in
  (forall p, In p ps -> p <> Die /\ p <> Spin) /\
  (forall i h q x, nth_error asks i = Some (h, q) -> nth_error ps (length jobs + i) = Some (Ret x) ->
     exists f g, allowed (some_set jobs R) R f /\ allowed (some_set jobs R) R g /\ forall y,
       x = Told (reply_of order rf (Tr (revalue f y R) nx) g (h, q))).
Proof.
  intros T D H G. pose proof T as (W & RR & WT). set (may := some_set jobs R). pose proof (walk_ids_nodup _ _ WT) as ND.
  set (Qg := fun (q : hdl * ask) (x : told) => exists f g, allowed may R f /\ allowed may R g /\ forall y, x = Told (reply_of order rf (Tr (revalue f y R) nx) g q)).
  assert (F : Forall2 (polite h0 may) (map (fun _ _ => True) jobs ++ map Qg asks)
     (map (put_all grow (nid R)) jobs ++ map (exporting order rf dep (nid R)) asks)).
  { apply Forall2_app.
    - assert (Y : forall js, incl js jobs -> Forall2 (polite h0 may) (map (fun _ _ => True) js) (map (put_all grow (nid R)) js)); [|apply Y, incl_refl].
      induction js as [|j js IH]; intros I; cbn; constructor.
      + destruct (sets_calm grow h0 may R j T) as (l & C & O).
        { intros k v Hin. destruct (H j k v (I j (or_introl eq_refl)) Hin) as [a Ha]. exists a. split; [exact Ha|].
          exists j, k. split; [apply I; now left|]. auto. }
        unfold put_all. eapply calm_polite; [exact C|]. intros. constructor. exact Logic.I.
      + apply IH. intros x Hx. apply I. now right.
    - induction asks as [|[h q] gs IH]; cbn [map]; constructor.
      + pose proof (G h q (or_introl eq_refl)) as SE. unfold exporting, p_ask, Qg, reply_of. cbn [fst snd]. destruct q as [p defs|p o|p o]; cbn [ask_path] in SE.
        * eapply polite_bind; [apply GetR_polite with (nx := nx); auto|]. intros x (f & Af & EQ). constructor. exists f, f. split; [exact Af|]. split; [exact Af|]. intros y. now rewrite (EQ y).
        * eapply polite_bind; [apply GetM_polite with (nx := nx); auto|]. intros x (f & g & Af & Ag & EQ). constructor. exists f, g. split; [exact Af|]. split; [exact Ag|]. intros y. now rewrite (EQ y).
        * eapply polite_bind; [apply To_polite with (nx := nx); auto|]. intros x (f & g & Af & Ag & EQ). constructor. exists f, g. split; [exact Af|]. split; [exact Ag|]. intros y. now rewrite (EQ y).
      + apply IH. intros h1 p1 Hin. apply G. now right. }
  assert (C : civil h0 may (map (fun _ _ => True) jobs ++ map Qg asks) (map (put_all grow (nid R)) jobs ++ map (exporting order rf dep (nid R)) asks) h0)
    by (split; [apply state_refl|exact F]).
  apply schedule_civil with (sch := sch) in C. destruct (schedule sch _ h0) as [ps m]. cbn [fst snd] in C. destruct C as [S F'].
  split.
  - intros p Hp. clear -F' Hp. induction F' as [|Q q Qs ps Hq F IH]; [easy|]. destruct Hp as [->|Hp]; [|now apply IH].
    split; intros ->; inversion Hq.
  - intros i h q x Hi Hx. apply Forall2_nth_error' with (i := length jobs + i) (b := Ret x) in F'; auto.
    destruct F' as (Q & HQ & P). rewrite nth_error_app2 in HQ by (rewrite map_length; lia). rewrite map_length in HQ.
    replace (length jobs + i - length jobs) with i in HQ by lia. rewrite nth_error_map, Hi in HQ. injection HQ as <-.
    inversion P as [y HY| | | |]; subst. exact HY.
Qed.
(** if everyone gets turns, everyone comes to an end *)
Lemma export_ends grow order rf h0 R nx jobs asks dep f : tree_in h0 R -> depth R <= dep ->
  (forall job k v, In job jobs -> In (k, v) job -> exists a, key_at R k a) ->
  (forall h q, In (h, q) asks -> searched R nx rf h (ask_path q)) ->
  fair (length jobs + length asks) f ->
  exists n, forall p, In p (fst (schedule (map f (seq 0 n)) (map (put_all grow (nid R)) jobs ++ map (exporting order rf dep (nid R)) asks) h0)) ->
    exists x, p = Ret x.
Proof.
  intros T D H G FR. destruct (all_end f (map (put_all grow (nid R)) jobs ++ map (exporting order rf dep (nid R)) asks) h0) as [n S].
  { rewrite app_length, !map_length. exact FR. }
  exists n. intros p Hp. pose proof (race_export grow order rf h0 R nx jobs asks dep (map f (seq 0 n)) T D H G) as RE.
  unfold after in S. destruct (schedule (map f (seq 0 n)) _ h0) as [ps m]. cbn [fst] in *. destruct RE as (NS & _).
  rewrite Forall_forall in S. specialize (S p Hp). destruct (NS p Hp) as [N1 N2]. destruct p; cbn in S; try contradiction; eauto.
Qed.

(** ** the same in terms of Sets *)
(** setting a key that exists changes the value of its node and nothing else *)
Lemma upd_other a q n : ~ In a (map nid (walk n)) -> upd a q n = n.
Proof.
  induction n as [n IH] using node_ind'. rewrite (walk_eq n). cbn [map]. intros NI.
  assert (E : upd a q n = set_kids (if nid n =? a then q n else n) (map (upd a q) (nkids n))) by now destruct n. rewrite E.
  destruct (Nat.eqb_spec (nid n) a) as [X|_]; [exfalso; apply NI; now left|].
  replace (map (upd a q) (nkids n)) with (nkids n); [now destruct n|]. rewrite <- (map_id (nkids n)) at 1. apply map_ext_in. intros k Hk.
  rewrite Forall_forall in IH. symmetry. apply IH; auto. intros X. apply NI. right. apply in_map_iff in X. destruct X as (z & <- & Hz).
  apply in_map. apply in_flat_map. eauto.
Qed.
Lemma upd_eq a q n : upd a q n = set_kids (if nid n =? a then q n else n) (map (upd a q) (nkids n)).
Proof. now destruct n. Qed.
Lemma ents_walk pre n w m : In (w, m) (ents pre n) -> In m (walk n).
Proof. intros H. rewrite (walk_ents pre n). change m with (snd (w, m)). now apply in_map. Qed.
Lemma nodup_part (n c : node) l r a : NoDup (map nid (walk n)) -> nkids n = l ++ c :: r -> In a (map nid (walk c)) ->
  nid n <> a /\ (forall k, In k l \/ In k r -> ~ In a (map nid (walk k))).
Proof.
  rewrite (walk_eq n). cbn [map]. intros ND E IN. inversion ND as [|? ? NI ND']; subst. split.
  - intros X. apply NI. rewrite X. apply in_map_iff in IN. destruct IN as (z & <- & Hz). apply in_map. apply in_flat_map. exists c. split; [|exact Hz].
    rewrite E. apply in_app_iff. right. now left.
  - rewrite E, flat_map_app, map_app in ND'. cbn [flat_map] in ND'. rewrite map_app in ND'. intros k Hk X.
    assert (G : forall q, In k q -> In a (map nid (flat_map walk q))).
    { intros q Hq. apply in_map_iff in X. destruct X as (z & <- & Hz). apply in_map. apply in_flat_map. eauto. }
    destruct Hk as [Hk|Hk].
    + apply G in Hk. clear -ND' Hk IN. induction (map nid (flat_map walk l)) as [|x q IH]; [easy|]. cbn in ND'. inversion ND' as [|? ? N1 N2]; subst.
      destruct Hk as [->|Hk]; [|auto]. apply N1. apply in_app_iff. right. apply in_app_iff. now left.
    + apply NoDup_app_r in ND'. apply G in Hk. clear -ND' Hk IN. induction (map nid (walk c)) as [|x q IH]; [easy|].
      cbn in ND'. inversion ND' as [|? ? N1 N2]; subst. destruct IN as [->|IN]; [|auto]. apply N1. apply in_app_iff. now right.
Qed.
Lemma insert_present f : forall n word m fp v nx, wfn n -> NoDup (map nid (walk n)) -> In (word, m) (ents [] n) ->
  length word + (match npath n with [] => 1 | _ => 0 end) < f ->
  exists ir, insertInternal f n word fp v nx = Ok ir /\ ir_node ir = upd (nid m) (setData v) n /\ ir_next ir = nx.
Proof.
  induction f as [|f IH]; intros n word m fp v nx WF ND IN L; [lia|]. cbn [insertInternal]. cbv zeta.
  rewrite ents_eq in IN. cbn [app] in IN. destruct IN as [X|X].
  - injection X as <- <-.
    replace ((length (npath n) =? 0) && ((0 <? length (npath n)) && (length (nkids n) =? 0))) with false
      by (destruct (npath n); reflexivity).
    replace (if (0 <? length (npath n)) && (0 <? length (npath n)) then cpl_len (npath n) (npath n) else 0) with (length (npath n)).
    2: { destruct (npath n) as [|a p]; [reflexivity|]. cbn [length Nat.ltb Nat.leb andb].
         pose proof (cpl_app (a :: p) []) as H. rewrite app_nil_r in H. now rewrite H. }
    rewrite Nat.ltb_irrefl. cbn [bind]. eexists. split; [reflexivity|]. cbn [ir_node ir_next]. split; [|reflexivity].
    rewrite upd_eq, Nat.eqb_refl. rewrite (walk_eq n) in ND. cbn [map] in ND. inversion ND as [|? ? NI _]; subst.
    replace (map (upd (nid n) (setData v)) (nkids n)) with (nkids n); [reflexivity|]. rewrite <- (map_id (nkids n)) at 1. apply map_ext_in. intros k Hk.
    symmetry. apply upd_other. intros X. apply NI. apply in_map_iff in X. destruct X as (z & <- & Hz). apply in_map. apply in_flat_map. eauto.
  - apply in_flat_map in X. destruct X as (c & Hc & X). rewrite ents_shift in X. apply in_map_iff in X.
    destruct X as ((w' & q) & X & IN). cbn in X. injection X as <- ->.
    destruct (wfn_kids _ _ WF Hc) as [NE Wc]. destruct (ents_head _ _ _ IN) as [z Ez].
    assert (NE' : w' <> []) by (intros ->; destruct (npath c); [congruence|discriminate]).
    destruct w' as [|w0 w']; [congruence|].
    replace (length (nkids n) =? 0) with false by (symmetry; apply Nat.eqb_neq; destruct (nkids n); [easy|cbn; lia]).
    rewrite !andb_false_r.
    replace (if (0 <? length (npath n)) && (0 <? length (npath n ++ w0 :: w')) then cpl_len (npath n ++ w0 :: w') (npath n) else 0)
      with (length (npath n)).
    2: { rewrite cpl_app. destruct (npath n); reflexivity. }
    rewrite Nat.ltb_irrefl. cbn [bind].
    replace (length (npath n) <? length (npath n ++ w0 :: w')) with true
      by (symmetry; apply Nat.ltb_lt; rewrite app_length; cbn; lia).
    replace (if 0 <? length (npath n) then skipn (length (npath n)) (npath n ++ w0 :: w') else npath n ++ w0 :: w') with (w0 :: w').
    2: { destruct (npath n) as [|a p]; [reflexivity|]. symmetry. apply skip_app. }
    assert (FR : fst_rune c = Some w0).
    { unfold fst_rune. destruct (npath c) as [|x p]; [congruence|]. cbn in Ez. now injection Ez as ->. }
    destruct (matchChildren_spec w0 w' (nkids n)) as [(l & c' & rr & MC & Ek & FR')|[_ NO]].
    { apply Forall_forall. intros k Hk. now apply (wfn_kids n). }
    2: { exfalso. now apply (NO c). }
    assert (c' = c) as ->.
    { apply (nodup_fst_eq (nkids n)); [now apply wfn_nodup| |exact Hc|congruence]. rewrite Ek. apply in_app_iff. right. now left. }
    rewrite MC. cbn [bind].
    assert (NDc : NoDup (map nid (walk c))) by (apply sub_nodup with n; [apply sub_kid with c; [exact Hc|constructor]|exact ND]).
    destruct (IH c (w0 :: w') m fp v nx Wc NDc IN) as (ir & -> & E1 & E2).
    { destruct (npath c) as [|x p]; [congruence|]. rewrite app_length in L. cbn [length] in L. destruct (npath n); cbn [length] in *; lia. }
    cbn [bind]. eexists. split; [reflexivity|]. cbn [ir_node ir_next]. split; [|exact E2].
    destruct (nodup_part n c l rr (nid m) ND Ek) as [P1 P2].
    { change m with (snd (w0 :: w', m)). apply in_map with (f := nid). exact (ents_walk _ _ _ _ IN). }
    rewrite upd_eq. destruct (Nat.eqb_spec (nid n) (nid m)) as [X|_]; [congruence|]. f_equal. rewrite Ek, map_app. cbn [map]. rewrite E1.
    assert (Q : forall q, (forall k, In k q -> In k l \/ In k rr) -> map (upd (nid m) (setData v)) q = q).
    { intros q Hq. rewrite <- (map_id q) at 2. apply map_ext_in. intros k Hk. apply upd_other, P2, Hq, Hk. }
    rewrite !Q; auto.
Qed.
Lemma rv_ents f y n : forall pre, ents pre (revalue f y n) = map (fun e => (fst e, revalue f y (snd e))) (ents pre n).
Proof.
  induction n as [n IH] using node_ind'. intros pre. rewrite (ents_eq pre n), (ents_eq pre (revalue f y n)).
  cbn [map fst snd]. rewrite rv_path. f_equal. rewrite rv_kids, map_flat_map.
  rewrite !flat_map_concat_map, map_map. f_equal. apply map_ext_in. intros k Hk. rewrite Forall_forall in IH. auto.
Qed.
Lemma rv_wfn f y n : wfn n -> wfn (revalue f y n).
Proof.
  induction n as [n IH] using node_ind'. intros WF. constructor; rewrite rv_kids.
  - rewrite map_map. erewrite map_ext; [exact (wfn_nodup _ WF)|]. intros k. unfold fst_rune. now rewrite rv_path.
  - apply Forall_map, Forall_forall. intros k Hk. rewrite rv_path. destruct (wfn_kids _ _ WF Hk). rewrite Forall_forall in IH. auto.
Qed.
Lemma rv_upd f y a v n : upd a (setData v) (revalue f y n) = revalue (fun b => if b =? a then v else f b) (fun b => (b =? a) || y b) n.
Proof.
  induction n as [n IH] using node_ind'. rewrite upd_eq, rv_id, rv_kids, map_map.
  replace (map (fun k => upd a (setData v) (revalue f y k)) (nkids n))
    with (map (revalue (fun b => if b =? a then v else f b) (fun b => (b =? a) || y b)) (nkids n))
    by (apply map_ext_in; intros k Hk; rewrite Forall_forall in IH; symmetry; auto).
  rewrite (revalue_eq (fun b => if b =? a then v else f b)), (revalue_eq f y n). destruct (nid n =? a); cbn; [|reflexivity].
  unfold setData, set_kids. cbn. f_equal. destruct (y (nid n)); [apply lor_idem|reflexivity].
Qed.
Lemma rv_ext f f' y n : (forall m, In m (walk n) -> f (nid m) = f' (nid m)) -> revalue f y n = revalue f' y n.
Proof.
  induction n as [n IH] using node_ind'. intros H. rewrite !revalue_eq. rewrite (H n) by (rewrite (walk_eq n); now left). f_equal.
  apply map_ext_in. intros k Hk. rewrite Forall_forall in IH. apply IH; auto. intros m Hm. apply H. rewrite (walk_eq n). right. apply in_flat_map. eauto.
Qed.
Lemma rv_old R : NoDup (map nid (walk R)) -> revalue (old_of R) (fun _ => false) R = R.
Proof.
  intros ND. assert (X : forall n, sub R n -> revalue (old_of R) (fun _ => false) n = n); [|apply X; constructor].
  induction n as [n IH] using node_ind'. intros SB. rewrite revalue_eq.
  rewrite old_of_in; [|exact ND|apply (sub_walk _ _ SB); rewrite (walk_eq n); now left].
  replace (map (revalue (old_of R) (fun _ => false)) (nkids n)) with (nkids n); [now destruct n|].
  rewrite <- (map_id (nkids n)) at 1. apply map_ext_in. intros k Hk. rewrite Forall_forall in IH. symmetry. apply IH; auto.
  clear -SB Hk. induction SB as [|n' k' m Hk' _ IH]; [apply sub_kid with k; [exact Hk|constructor]|apply sub_kid with k'; auto].
Qed.
(** [t1] comes from [t] by setting keys as the jobs do, some of them, in some order *)
Definition some_sets (jobs : list (list (gostring * gval))) (t t1 : tr) : Prop :=
  exists l, (forall k v, In (k, v) l -> exists job, In job jobs /\ In (k, v) job) /\ t_sets l t = Ok t1.
Lemma t_sets_app l : forall r t, t_sets (l ++ r) t = do t' <- t_sets l t; t_sets r t'.
Proof.
  induction l as [|[k v] l IH]; intros r t; cbn [app t_sets bind]; [reflexivity|].
  destruct (insert_root t k v) as [[t' ir]| |]; cbn [bind]; auto.
Qed.
Lemma allowed_sets jobs R nx f : wf_tr (Tr R nx) -> allowed (some_set jobs R) R f ->
  exists y, some_sets jobs (Tr R nx) (Tr (revalue f y R) nx).
Proof.
  intros WT A. pose proof (walk_ids_nodup _ _ WT) as ND. pose proof (proj1 (proj2 (proj1 WT))) as WF. cbn [root] in WF.
  assert (X : forall ns, incl ns (walk R) -> exists y,
    some_sets jobs (Tr R nx) (Tr (revalue (fun a => if existsb (Nat.eqb a) (map nid ns) then f a else old_of R a) y R) nx)).
  { induction ns as [|n ns IH]; intros I.
    - exists (fun _ => false), []. split; [easy|]. cbn [map existsb t_sets]. change (fun a => old_of R a) with (old_of R). now rewrite rv_old.
    - destruct IH as (y & l & L1 & L2); [intros z Hz; apply I; now right|]. destruct (A n (I n (or_introl eq_refl))) as [E|(job & k & J1 & J2 & (m & Hm & EM))].
      + exists y, l. split; [exact L1|]. rewrite L2. do 2 f_equal. apply rv_ext. intros m Hm. cbn [map existsb].
        destruct (Nat.eqb_spec (nid m) (nid n)) as [Z|_]; cbn [orb]; [|reflexivity]. rewrite Z, E.
        destruct (existsb _ _); [reflexivity|]. apply old_of_in; auto. apply I. now left.
      + exists (fun b => (b =? nid n) || y b), (l ++ [(k, f (nid n))]). split.
        * intros k' v' Hin. apply in_app_iff in Hin. destruct Hin as [Hin|[Hin|[]]]; [auto|]. injection Hin as <- <-. eauto.
        * rewrite t_sets_app, L2. cbn [bind t_sets]. unfold insert_root. cbn [root next].
          set (f0 := fun a => if existsb (Nat.eqb a) (map nid ns) then f a else old_of R a).
          destruct (insert_present (S (S (length (runes k)))) (revalue f0 y R) (runes k) (revalue f0 y m) k (f (nid n)) nx) as (ir & -> & E1 & E2).
          -- now apply rv_wfn.
          -- rewrite rv_walk, map_map. erewrite map_ext; [exact ND|]. intros. apply rv_id.
          -- rewrite rv_ents. apply in_map_iff. exists (runes k, m). auto.
          -- destruct (npath _); lia.
          -- cbn [bind]. rewrite E1, E2, rv_id, EM, rv_upd. do 2 f_equal. apply rv_ext. intros b _. unfold f0. cbn [map existsb].
             destruct (Nat.eqb_spec (nid b) (nid n)) as [->|_]; reflexivity. }
  destruct (X (walk R) (incl_refl _)) as (y & S). exists y. erewrite rv_ext; [exact S|]. intros m Hm. cbv beta.
  replace (existsb (Nat.eqb (nid m)) (map nid (walk R))) with true; [reflexivity|]. symmetry. apply existsb_exists. exists (nid m).
  split; [now apply in_map|apply Nat.eqb_refl].
Qed.
Lemma rv_old_of f y R n : NoDup (map nid (walk R)) -> In n (walk R) -> old_of (revalue f y R) (nid n) = f (nid n).
Proof.
  intros ND H. rewrite <- (rv_id f y n). rewrite old_of_in; [now rewrite rv_data, rv_id| |].
  - rewrite rv_walk, map_map. erewrite map_ext; [exact ND|]. intros. apply rv_id.
  - rewrite rv_walk. now apply in_map.
Qed.

Lemma took_ext d flt g g' f ns : (forall n, In n ns -> g (nid n) = g' (nid n)) ->
  map (fun n => took_as d flt n (f (nid n)) (g (nid n))) ns = map (fun n => took_as d flt n (f (nid n)) (g' (nid n))) ns.
Proof. intros H. apply map_ext_in. intros n Hn. now rewrite H. Qed.
Lemma GetM_ext order rf h R nx f y g g' path o : (forall n, In n (walk R) -> g (nid n) = g' (nid n)) ->
  GetM rf order h (Tr (revalue f y R) nx) path (opts_of g o) = GetM rf order h (Tr (revalue f y R) nx) path (opts_of g' o).
Proof.
  intros H. rewrite !GetM_rv. cbv zeta. cbn [opts_of o_noflat]. destruct (is_root_path path).
  { rewrite <- !fold_root. now rewrite (took_ext _ _ g g') by exact H. }
  destruct (search rf h (Tr R nx) (full h path)) as [r| |] eqn:S; cbn [bind]; try reflexivity.
  destruct (Trie.s_node r) as [n|] eqn:N; [|reflexivity]. rewrite <- !fold_path. rewrite (took_ext _ _ g g'); [reflexivity|].
  intros m Hm. apply H. exact (sub_walk _ _ (search_child _ _ _ _ _ _ _ S N) m Hm).
Qed.
Lemma reply_ext order rf R nx f y g g' q : (forall n, In n (walk R) -> g (nid n) = g' (nid n)) ->
  reply_of order rf (Tr (revalue f y R) nx) g q = reply_of order rf (Tr (revalue f y R) nx) g' q.
Proof.
  intros H. unfold reply_of, To. destruct (snd q) as [p defs|p o|p o]; [reflexivity|now apply GetM_ext|].
  now rewrite (GetM_ext order rf (fst q) R nx f y g g' p o H).
Qed.
(** the value at [a] in the tree [t] *)
Definition value_in (t : tr) (a : nat) : gval := old_of (root t) a.
Lemma race_export_sets grow order rf h0 R nx jobs asks dep sch : tree_in h0 R -> wf_tr (Tr R nx) -> depth R <= dep ->
  (forall job k v, In job jobs -> In (k, v) job -> exists a, key_at R k a) ->
  (forall h q, In (h, q) asks -> searched R nx rf h (ask_path q)) ->
  let (ps, m) := schedule sch (map (put_all grow (nid R)) jobs ++ map (exporting order rf dep (nid R)) asks) h0 in
  (forall p, In p ps -> p <> Die /\ p <> Spin) /\
  (forall i h q x, nth_error asks i = Some (h, q) -> nth_error ps (length jobs + i) = Some (Ret x) ->
     exists t1 t2, some_sets jobs (Tr R nx) t1 /\ some_sets jobs (Tr R nx) t2 /\ x = Told (reply_of order rf t1 (value_in t2) (h, q))).
Proof.
  intros T WT D H G. pose proof (race_export grow order rf h0 R nx jobs asks dep sch T D H G) as RE.
  destruct (schedule sch _ h0) as [ps m]. destruct RE as (NS & RE). split; [exact NS|]. intros i h q x Hi Hx.
  destruct (RE i h q x Hi Hx) as (f & g & Af & Ag & EQ).
  destruct (allowed_sets jobs R nx f WT Af) as (yf & Sf). destruct (allowed_sets jobs R nx g WT Ag) as (yg & Sg).
  exists (Tr (revalue f yf R) nx), (Tr (revalue g yg R) nx). split; [exact Sf|]. split; [exact Sg|]. rewrite (EQ yf). f_equal.
  apply reply_ext. intros n Hn. unfold value_in. cbn [root]. symmetry. apply rv_old_of; auto. now apply walk_ids_nodup with nx.
Qed.
(** without a filter one tree answers *)
Definition unfiltered (q : ask) : Prop := match q with AskR _ _ => True | AskM _ o | AskTo _ o => ho_filter o = None end.
Definition plain_opts (o : hopts) : mopts := MOpts (ho_keep o) (ho_noflat o) None.
Definition reply_plain (order : gmap -> gmap) rf (t : tr) (q : hdl * ask) : res (option gmap) :=
  match snd q with
  | AskR p defs => GetR rf (fst q) t p defs
  | AskM p o => GetM rf order (fst q) t p (plain_opts o)
  | AskTo p o => To rf order (fst q) t p (plain_opts o)
  end.
Lemma reply_unfiltered order rf t g q : unfiltered (snd q) -> reply_of order rf t g q = reply_plain order rf t q.
Proof. unfold reply_of, reply_plain, opts_of, plain_opts. destruct (snd q) as [p defs|p o|p o]; cbn; [reflexivity| |]; intros ->; reflexivity. Qed.

Lemma exports_only order rf h0 R nx asks dep sch : tree_in h0 R -> wf_tr (Tr R nx) -> depth R <= dep ->
  (forall h q, In (h, q) asks -> searched R nx rf h (ask_path q)) ->
  let (ps, m) := schedule sch (map (exporting order rf dep (nid R)) asks) h0 in
  forall i h q x, nth_error asks i = Some (h, q) -> nth_error ps i = Some (Ret x) ->
    x = Told (reply_of order rf (Tr R nx) (value_in (Tr R nx)) (h, q)).
Proof.
  intros T WT D G. pose proof (race_export_sets no_room order rf h0 R nx [] asks dep sch T WT D (fun job k v H => match H with end) G) as RE.
  cbn [map app length Nat.add] in RE. destruct (schedule sch _ h0) as [ps m]. intros i h q x Hi Hx. destruct RE as (_ & RE).
  assert (X : forall t1, some_sets [] (Tr R nx) t1 -> t1 = Tr R nx).
  { intros t1 ([|[k v] l] & L1 & L2); [now injection L2|]. destruct (L1 k v (or_introl eq_refl)) as (job & [] & _). }
  destruct (RE i h q x Hi Hx) as (t1 & t2 & S1 & S2 & ->). now rewrite (X t1 S1), (X t2 S2).
Qed.

(** ** concrete interleavings *)
Definition as_is (m : gmap) : gmap := m.
(** the export takes [i] steps, the other goroutine [j], then the export goes on, then the other *)
Definition sch_export (i j : nat) : list nat := repeat 1 i ++ repeat 0 j ++ repeat 1 90 ++ repeat 0 90.
Definition beside_export (w : prog told) (q : ask) : list (prog told) := [w; exporting as_is 5 5 0 (defaultHdl, q)].
Definition export_beside (w : prog told) (q : ask) (h : heap) (i j : nat) : option (res (option gmap)) :=
  match nth_error (fst (schedule (sch_export i j) (beside_export w q) h)) 1 with Some (Ret (Told x)) => Some x | _ => None end.
(** what the same export would give if it ran alone, at all times *)
Definition exports_alone (w : prog told) (q : ask) (h : heap) (i j : nat) : list (option (res (option gmap))) :=
  map (fun n => match run (exporting as_is 5 5 0 (defaultHdl, q)) (snd (schedule (firstn n (sch_export i j)) (beside_export w q) h)) with
                | Ok (_, Told x) => Some x | _ => None end) (seq 0 (S (length (sch_export i j)))).
Definition set_ab : prog told := put_all no_room 0 [(s2b "a"%string, GStr [55%N]); (s2b "b"%string, GStr [56%N])].
Definition set_apricot : prog told := put_all no_room 0 [(s2b "apricot"%string, GStr [50%N])].
Definition rem_a : prog told := let* _ := HeapRemove.p_removeEx no_room 1 5 defaultHdl 0 (s2b "a"%string) in Ret Done.
Definition all_of : ask := AskM [] (HOpts false false None).
Definition only_1 (s : shown) : bool := match sw_data s with GStr [c] => (c =? 49)%N | _ => false end.
Definition ones_of : ask := AskM [] (HOpts false false (Some only_1)).
Definition kv (s : string) (c : N) : gostring * gval := (s2b s, GStr [c]).
Definition gave (m : gmap) : option (res (option gmap)) := Some (Ok (Some m)).
Definition code_of (x : option (res (option gmap))) : list N :=
  match x with Some (Ok (Some m)) => flat_map (fun e => fst e ++ match snd e with GStr s => s | _ => [0%N] end) m | _ => [] end.
Lemma mixed_export : export_beside set_ab all_of h_abc 9 90 = gave [kv "a" 49%N; kv "b" 56%N; kv "c" 51%N].
Proof. vm_compute. reflexivity. Qed.
Lemma mixed_export_never : ~ In (gave [kv "a" 49%N; kv "b" 56%N; kv "c" 51%N]) (exports_alone set_ab all_of h_abc 9 90).
Proof.
  set (x := gave [kv "a" 49%N; kv "b" 56%N; kv "c" 51%N]).
  assert (X : existsb (fun z => if list_eq_dec N.eq_dec (code_of x) (code_of z) then true else false) (exports_alone set_ab all_of h_abc 9 90) = false)
    by (vm_compute; reflexivity).
  intros H. enough (Y : existsb (fun z => if list_eq_dec N.eq_dec (code_of x) (code_of z) then true else false) (exports_alone set_ab all_of h_abc 9 90) = true)
    by (rewrite X in Y; discriminate).
  apply existsb_exists. eexists. split; [exact H|]. vm_compute. reflexivity.
Qed.
Lemma let_through : export_beside set_ab ones_of h_abc 12 90 = gave [kv "a" 55%N].
Proof. vm_compute. reflexivity. Qed.
Lemma ones_alone : export_beside set_ab ones_of h_abc 90 90 = gave [kv "a" 49%N] /\ export_beside set_ab ones_of h_abc 0 90 = gave [].
Proof. split; vm_compute; reflexivity. Qed.
Lemma phantom_export : export_beside set_apricot all_of h_apple 0 9 = gave [kv "ap" 49%N].
Proof. vm_compute. reflexivity. Qed.
Lemma missing_export : export_beside rem_a all_of h_abc 5 90 = gave [kv "a" 49%N; kv "c" 51%N].
Proof. vm_compute. reflexivity. Qed.
