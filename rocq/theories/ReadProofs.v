(** What the store answers after its own writes, and the must-forms of sizes and times. *)
From Coq Require Import List NArith ZArith Bool Arith Lia.
From Verif Require Import GoStr Utf8 Node Trie Spec Refine ApiRefine Reach Derived Derived2 Derived3 Derived5 Cvter CvterProofs
  Getters GetterProofs Store StoreProofs.
Import ListNotations.
Open Scope nat_scope.
Open Scope list_scope.

(** ** the reads of a store *)
Lemma reads_answer D rf hist t outs s path :
  plain_hist D hist -> t_run (S rf) hist newTrie = Ok (t, outs) -> D (hdelim (so_h s)) ->
  let m := fst (s_run (views hist) s_init) in
  let v := view_of (so_h s) in
  exists x found y has,
    st_Get (S rf) s t path = Ok (x, found) /\ snd (s_step v m (OGet path)) = RGet x found /\
    st_MustGet (S rf) s t path = Ok y /\ snd (s_step v m (OMustGet path)) = RMust y /\
    st_Has (S rf) s t path = Ok has /\ snd (s_step v m (OHas path)) = RBool has.
Proof.
  intros PH E HD m v.
  destruct (run_refines rf D hist newTrie s_init newTrie_wf newTrie_abs) as (t' & E' & WT & A & PA); auto.
  { intros d _. apply plain_init. }
  rewrite E in E'. injection E' as <- _. fold m in A, PA.
  destruct (step_refines rf D (so_h s) t m (OGet path) HD WT A PA) as (t1 & E1 & _).
  destruct (step_refines rf D (so_h s) t m (OMustGet path) HD WT A PA) as (t2 & E2 & _).
  destruct (step_refines rf D (so_h s) t m (OSearch path) HD WT A PA) as (t3 & E3 & _).
  fold v in E1, E2, E3. cbn [t_step] in E1, E2, E3. unfold st_Get, st_MustGet, st_Has.
  destruct (Get (S rf) (so_h s) t path) as [[x f]| |]; try discriminate.
  destruct (MustGet (S rf) (so_h s) t path) as [y| |]; try discriminate.
  destruct (Search_ (S rf) (so_h s) t path) as [b| |]; try discriminate.
  cbn [bind] in E1, E2, E3. exists x, f, y, b.
  split; [reflexivity|]. split; [congruence|]. split; [reflexivity|]. split; [congruence|]. split; [reflexivity|].
  change (snd (s_step v m (OHas path))) with (snd (s_step v m (OSearch path))). congruence.
Qed.

Lemma reads_present D rf s t path a :
  plain_reach D t -> D (hdelim (so_h s)) -> t_get t (runes (full (so_h s) path)) = Some a ->
  let x := if a_has a then a_data a else GNil in
  st_Get (S rf) s t path = Ok (x, a_leaf a || ends_with (hdelim (so_h s)) (runes (full (so_h s) path))) /\
  st_MustGet (S rf) s t path = Ok x /\ st_Has (S rf) s t path = Ok true.
Proof.
  intros R HD G x. destruct (query_present D rf (so_h s) t path a R HD G) as (q & Q & Q1 & Q2 & Q3).
  unfold st_Get, st_MustGet, st_Has, Get, MustGet. rewrite Q. cbn [bind]. rewrite Q1, Q2, Q3. fold x.
  split; [reflexivity|]. split; [destruct (a_leaf a); cbn; rewrite ?andb_false_r; reflexivity|].
  destruct (plain_reach_inv D t R) as [WT PA].
  destruct (step_refines rf D (so_h s) t (entries t) (OSearch path) HD WT (abs_entries t) PA) as (t' & E & _).
  cbn [t_step s_step view_of v_delim v_pfx v_up snd] in E. rewrite search_mem in E by (right; apply smem_sget; eauto).
  cbn [s_has] in E. destruct (Search_ (S rf) (so_h s) t path); cbn [bind] in E; try discriminate. now injection E as _ ->.
Qed.

(** ** a write and the reads after it *)
Lemma st_set_reads D rf s t path v t' id old es :
  plain_reach D t -> D (hdelim (so_h s)) -> op_plain D (full (so_h s)) (OSet path v) -> blank_free (full (so_h s) path) ->
  st_Set (S rf) s t path v = Ok (t', id, old, es) ->
  plain_reach D t' /\
  st_Get (S rf) s t' path = Ok (v,
    match t_get t (runes (full (so_h s) path)) with
    | Some a => a_leaf a
    | None => negb (existsb (sprefix (runes (full (so_h s) path))) (skeys (entries t)))
    end || ends_with (hdelim (so_h s)) (runes (full (so_h s) path))) /\
  st_MustGet (S rf) s t' path = Ok v /\ st_Has (S rf) s t' path = Ok true /\
  forall s2 p a, D (hdelim (so_h s2)) -> t_get t (runes (full (so_h s2) p)) = Some a ->
    runes (full (so_h s2) p) <> runes (full (so_h s) path) ->
    st_Get (S rf) s2 t' p = st_Get (S rf) s2 t p /\ st_MustGet (S rf) s2 t' p = st_MustGet (S rf) s2 t p /\
    st_Has (S rf) s2 t' p = Ok true.
Proof.
  intros R HD OP BF E. unfold st_Set in E.
  destruct (Query (S rf) (so_h s) t path) as [q| |]; try discriminate. cbn [bind] in E.
  destruct (setKV_step (S rf) s t path v (negb (q_found q)) [] (plain_reach_reached D t R)) as (t1 & id1 & E1 & ST & G & FR & _).
  rewrite E in E1. injection E1 as <- _ _ _.
  assert (W : wkey (so_h s) path = runes (full (so_h s) path)) by (unfold wkey; now rewrite blank_free_replace).
  rewrite W in *.
  assert (R' : plain_reach D t').
  { eapply plain_more; [exact R|exact HD| |exact ST]. unfold wop. destruct (so_loading s); exact OP. }
  split; [exact R'|].
  destruct (reads_present D rf s t' path _ R' HD G) as (A1 & A2 & A3).
  assert (X : forall t w, a_has (wattr t (so_loading s) [] w v) = true /\ a_data (wattr t (so_loading s) [] w v) = v /\
    a_leaf (wattr t (so_loading s) [] w v) = match t_get t w with Some a => a_leaf a | None => negb (existsb (sprefix w) (skeys (entries t))) end).
  { intros u w. unfold wattr, fresh_attr. destruct (so_loading s); destruct (t_get u w); cbn; auto. }
  destruct (X t (runes (full (so_h s) path))) as (X1 & X2 & X3). rewrite X1, X2, ?X3 in *.
  split; [exact A1|]. split; [exact A2|]. split; [exact A3|].
  intros s2 p a HD2 G2 N. pose proof (FR _ a N G2) as G3.
  destruct (reads_present D rf s2 t p a R HD2 G2) as (B1 & B2 & B3).
  destruct (reads_present D rf s2 t' p a R' HD2 G3) as (C1 & C2 & C3).
  rewrite B1, B2, C1, C2. auto.
Qed.

(** ** MustKibiBytes, MustKiloBytes *)
Lemma mustBytes_exact D rf from str h t path defs :
  plain_reach D t -> D (hdelim h) ->
  let q := s_query (hdelim h) (entries t) (s_search (hdelim h) (is_up h) (entries t) (full h path)) in
  mustBytes (getBytes (S rf) from str h t path defs) =
  (if snd q then
     match str (fst (fst q)) with
     | [] => Ok (last defs 0%N)
     | c :: s => from (c :: s)
     end
   else Ok (last defs 0%N)).
Proof.
  intros R HD q. rewrite (getBytes_exact D rf from str h t path defs R HD). fold q. unfold mustBytes.
  destruct (snd q); [|reflexivity]. destruct (str (fst (fst q))) as [|c x]; [reflexivity|].
  now destruct (from (c :: x)).
Qed.

(** ** MustSmartParseTime *)
Lemma must_time_first {time err} (zero : time) (parse : gostring -> gostring -> time + err) known s t :
  MustSmartParseTime time err zero parse known s = t <->
  (exists ls1 l ls2, known = ls1 ++ l :: ls2 /\ Forall (fun x => fails parse x s) ls1 /\ parse l s = inl t) \/
  (Forall (fun x => fails parse x s) known /\ t = zero).
Proof.
  unfold MustSmartParseTime, SmartParseTime. generalize (@None err) as e0. revert t.
  induction known as [|l known IH]; intros t e0; cbn [try_layouts].
  - cbn. split.
    + intros <-. right. auto.
    + intros [(ls1 & l & ls2 & E & _)|[_ ->]]; [destruct ls1; discriminate|reflexivity].
  - destruct (parse l s) as [u|e] eqn:P.
    + cbn. split.
      * intros <-. left. exists [], l, known. auto.
      * intros [(ls1 & l' & ls2 & E & F & Q)|[F _]].
        -- destruct ls1 as [|x ls1]; injection E as E1 E2; subst; [congruence|].
           inversion F as [|? ? [e He] _]; subst. congruence.
        -- inversion F as [|? ? [e He] _]; subst. congruence.
    + rewrite IH. split.
      * intros [(ls1 & l' & ls2 & -> & F & Q)|[F ->]].
        -- left. exists (l :: ls1), l', ls2. split; [reflexivity|]. split; [constructor; [now exists e|exact F]|exact Q].
        -- right. split; [constructor; [now exists e|exact F]|reflexivity].
      * intros [(ls1 & l' & ls2 & E & F & Q)|[F ->]].
        -- destruct ls1 as [|x ls1]; injection E as E1 E2; subst; [congruence|].
           left. exists ls1, l', ls2. inversion F; subst. auto.
        -- right. inversion F; subst. auto.
Qed.
