(** What an observer of the handlers of a store knows, and what Remove removes through a recursive handle. *)
From Coq Require Import List NArith Bool Arith Lia.
From Verif Require Import GoStr Utf8 Node NodeWf Trie Spec TreeOps Refine Climb ApiRefine Reach Derived Derived2 Derived3 Derived5 Cvter CvterProofs
  Store StoreProofs Follow HeapLinProofs Sections.
Import ListNotations.
Open Scope nat_scope.

(** ** calls of a store *)
Inductive sop := SSet (p : gostring) (v : gval) | SRem (p : gostring).
Definition so_step (rf : nat) (s : store) (t : tr) (o : sop) : res (tr * list ev) :=
  match o with
  | SSet p v => do (t', _, _, e) <- st_Set rf s t p v; Ok (t', e)
  | SRem p => do (t', _, e) <- st_Remove rf s t p; Ok (t', e)
  end.
(** the handlers called by each of the calls *)
Fixpoint so_run (rf : nat) (s : store) (t : tr) (l : list sop) : res (tr * list (list ev)) :=
  match l with
  | [] => Ok (t, [])
  | o :: r => do (t1, e) <- so_step rf s t o; do (t2, es) <- so_run rf s t1 r; Ok (t2, e :: es)
  end.
Definition sop_plain (D : rune -> Prop) (h : hdl) (o : sop) : Prop :=
  match o with SSet p v => op_plain D (full h) (OSet p v) | SRem _ => True end.

(** ** the observer: the calls of its three handlers, one after the other *)
Definition heard (h : hdl) (n c d : nat) (e : ev) : list rop :=
  match e with
  | ENew i p v _ => if i =? n then [RSet h p v] else []
  | EChange i p v _ _ => if i =? c then [RSet h p v] else []
  | EDelete i p _ _ => if i =? d then [RRem h p] else []
  end.
Definition learns (h : hdl) (n c d : nat) (f : skey -> option gval) (es : list ev) : skey -> option gval :=
  fold_left r_eff (flat_map (heard h n c d) es) f.
(** nil for what it has not *)
Definition oldv (o : option gval) : gval := match o with Some v => v | None => GNil end.

Lemma eff_ext f g o : (forall k, f k = g k) -> forall k, r_eff f o k = r_eff g o k.
Proof. intros E k. destruct o; cbn; [destruct (str_eqb _ _)|destruct (has_prefix _ _)]; auto. Qed.
Lemma effs_ext l : forall f g, (forall k, f k = g k) -> forall k, fold_left r_eff l f k = fold_left r_eff l g k.
Proof. induction l as [|o l IH]; intros f g E k; cbn; auto. apply IH. now apply eff_ext. Qed.
Lemma eff_again f o k : r_eff (r_eff f o) o k = r_eff f o k.
Proof. destruct o; cbn; [destruct (str_eqb _ _)|destruct (has_prefix _ _)]; auto. Qed.
Lemma effs_same o l : forall f, Forall (eq o) l -> l <> [] -> forall k, fold_left r_eff l f k = r_eff f o k.
Proof.
  induction l as [|x l IH]; intros f F N k; [congruence|]. inversion F as [|? ? F1 F2]; subst x. cbn [fold_left].
  destruct l as [|y l]; [reflexivity|]. rewrite IH by (auto; discriminate). apply eff_again.
Qed.
Lemma heard_map h n c d (mk : nat -> ev) o i L : (forall j, heard h n c d (mk j) = if j =? i then [o] else []) -> In i L ->
  Forall (eq o) (flat_map (heard h n c d) (map mk L)) /\ flat_map (heard h n c d) (map mk L) <> [].
Proof.
  intros H I. split.
  - clear I. induction L as [|j L IH]; cbn; auto. rewrite H. destruct (j =? i); cbn; auto.
  - induction L as [|j L IH]; [easy|]. cbn. rewrite H. destruct I as [->|I]; [now rewrite Nat.eqb_refl|].
    destruct (j =? i); [discriminate|]. cbn. auto.
Qed.
(** a removal that hits: what goes is what begins with the path *)
Lemma hit_data d t w g : wf_tr t -> target d t w = Some g -> forall t',
  (forall k, t_get t' k = if has_prefix g k then None else t_get t k) ->
  forall k, data_at t' k = if has_prefix w k then None else data_at t k.
Proof.
  intros WT T t' G k. unfold data_at. rewrite G. unfold target in T. assert (NW : w <> []) by (intros ->; discriminate).
  replace (match w with [] => None | _ :: _ => match t_get t w with Some _ => Some w | None => match t_get t (w ++ [d]) with Some _ => Some (w ++ [d]) | None => None end end end)
    with (match t_get t w with Some _ => Some w | None => match t_get t (w ++ [d]) with Some _ => Some (w ++ [d]) | None => None end end) in T by (now destruct w).
  rename w into W.
  destruct (t_get t W) as [a|] eqn:GA; [injection T as <-; now destruct (has_prefix W k)|].
  destruct (t_get t (W ++ [d])) as [a|] eqn:GB; [|discriminate]. assert (EG : g = W ++ [d]) by congruence. subst g.
  destruct (has_prefix (W ++ [d]) k) eqn:P1.
  - apply has_prefix_trans in P1. rewrite P1. reflexivity.
  - destruct (has_prefix W k) eqn:P2; [|reflexivity]. destruct (t_get t k) as [b|] eqn:GK; [|reflexivity]. exfalso.
    apply has_prefix_ex in P2. destruct P2 as [x ->]. destruct x as [|y x].
    { rewrite app_nil_r in GK. congruence. }
    destruct (N.eq_dec y d) as [->|NE].
    + assert (X : has_prefix (W ++ [d]) ((W ++ [d]) ++ x) = true) by apply has_prefix_app. rewrite <- app_assoc in X. change ([d] ++ x) with (d :: x) in X. exact (eq_true_false_abs _ X P1).
    + assert (GL : t_get t (lcp (W ++ y :: x) (W ++ [d])) <> None).
      { apply keys_lcp; [exact WT|intros Z; pose proof (eq_trans (eq_sym GK) Z); discriminate|rewrite GB; discriminate]. }
      rewrite lcp_diff in GL by exact NE. exact (GL GA).
Qed.

Lemma plain_clean_get D t : plain_reach D t -> forall k a, t_get t k = Some a -> a_has a = false -> a_data a = GNil.
Proof.
  induction 1 as [|rf h o t t' r PR IH Hd OP E].
  - intros k a. unfold t_get. cbn. destruct k; cbn; [|discriminate]. intros X. now injection X as <-.
  - destruct (plain_reach_step D rf h t o PR Hd) as (t1 & E1 & _ & A). rewrite E in E1. injection E1 as <- _.
    intros k a. unfold t_get. rewrite <- (abs_entries t' k), (A k). apply (clean_step _ _ _ IH).
Qed.

Section Observer.
Variables (D : rune -> Prop) (rf : nat) (s : store) (n c d : nat).
Hypotheses (HD : D (hdelim (so_h s))) (HM : hmode (so_h s) <> ModeUp)
  (Hn : In n (listeners so_new s)) (Hc : In c (listeners so_chg s)) (Hdl : In d (listeners so_del s)).
Lemma observes o t : plain_reach D t -> sop_plain D (so_h s) o ->
  exists t' es, so_step (S rf) s t o = Ok (t', es) /\ plain_reach D t' /\
    (forall k, data_at t' k = learns (so_h s) n c d (data_at t) es k) /\
    (forall i p v old u, In (EChange i p v old u) es -> old = oldv (data_at t (wkey (so_h s) p))).
Proof.
  intros R PL. destruct o as [p v|p]; cbn [so_step].
  - unfold st_Set. assert (Q : exists q, Query (S rf) (so_h s) t p = Ok q).
    { destruct (plain_reach_step D rf (so_h s) t (OQuery p) R HD) as (t0 & E & _). cbn [t_step] in E.
      destruct (Query (S rf) (so_h s) t p); cbn [bind] in E; eauto; discriminate. }
    destruct Q as [q Q]. rewrite Q. cbn [bind].
    destruct (setKV_step (S rf) s t p v (negb (q_found q)) [] (plain_reach_reached D t R)) as (t' & id & E1 & S1 & G1 & F1 & N1).
    rewrite E1. cbn [bind]. exists t'. eexists. split; [reflexivity|]. split.
    { refine (plain_more D rf (so_h s) _ t t' _ R HD _ S1). clear -PL. cbn [sop_plain] in PL. unfold wop. destruct (so_loading s); exact PL. }
    set (old := old_at t (wkey (so_h s) p)) in *. set (user := negb (so_loading s)) in *.
    rewrite tryOnSet_listeners. split.
    + assert (DA : forall k, data_at t' k = r_eff (data_at t) (RSet (so_h s) p v) k).
      { intros k. cbn [r_eff]. unfold data_at. destruct (str_eqb (wkey (so_h s) p) k) eqn:Ek.
        - apply str_eqb_eq in Ek. subst k. rewrite G1. unfold wattr, fresh_attr. destruct (so_loading s), (t_get t (wkey (so_h s) p)); reflexivity.
        - assert (Hk : k <> wkey (so_h s) p) by (intros ->; rewrite str_eqb_refl in Ek; discriminate).
          destruct (t_get t k) as [a|] eqn:G; [now rewrite (F1 k a Hk G)|]. now destruct (N1 k Hk G) as [-> | ->]. }
      intros k. rewrite DA. unfold learns. symmetry.
      match goal with |- context [if ?b then map _ _ else _] => destruct b end.
      * destruct (heard_map (so_h s) n c d (fun i => ENew i p v user) (RSet (so_h s) p v) n (listeners so_new s)) as [X1 X2]; auto.
        now apply effs_same.
      * destruct (heard_map (so_h s) n c d (fun i => EChange i p v old user) (RSet (so_h s) p v) c (listeners so_chg s)) as [X1 X2]; auto.
        now apply effs_same.
    + intros i p' v' old' u I. assert (X : p' = p /\ old' = old).
      { match type of I with context [if ?b then map _ _ else _] => destruct b end; apply in_map_iff in I; destruct I as (j & E & _); inversion E; auto. }
      destruct X as [-> ->]. unfold old, old_at, data_at, oldv. destruct (t_get t (wkey (so_h s) p)) as [a|] eqn:G; auto.
      destruct (a_has a) eqn:Ha; auto. apply (plain_clean_get D t R _ _ G Ha).
  - destruct (remove_events D rf s t p R HD HM) as (t' & E & ER). destruct (remove_spec D rf (so_h s) t p R HD HM) as (t1 & ER1 & G).
    assert (t1 = t') by congruence. subst t1.
    assert (R' : plain_reach D t').
    { eapply (plain_more D rf (so_h s) (ORemove p) t t'); eauto; [intros x _; exact I|]. cbn [t_step]. rewrite ER. reflexivity. }
    destruct (target (hdelim (so_h s)) t (runes (full (so_h s) p))) as [g|] eqn:T.
    + rewrite E. cbn [bind]. exists t'. eexists. split; [reflexivity|]. split; [exact R'|]. split.
      * intros k. rewrite (hit_data (hdelim (so_h s)) t _ g (reached_wf t (plain_reach_reached D t R)) T t' G k).
        unfold learns. symmetry.
        destruct (heard_map (so_h s) n c d (fun i => EDelete i p (old_at t g) (negb (so_loading s))) (RRem (so_h s) p) d (listeners so_del s)) as [X1 X2]; auto.
        rewrite effs_same with (o := RRem (so_h s) p) by auto. reflexivity.
      * intros i p' v' old' u I. apply in_map_iff in I. destruct I as (j & X & _). discriminate.
    + rewrite E. cbn [bind]. exists t', []. split; [reflexivity|]. split; [exact R'|]. split; [|intros ? ? ? ? ? []].
      intros k. unfold data_at. now rewrite G.
Qed.
(** after any number of calls *)
Theorem observed l : forall t f, plain_reach D t -> agree t f -> Forall (sop_plain D (so_h s)) l ->
  exists t' es, so_run (S rf) s t l = Ok (t', es) /\ plain_reach D t' /\
    agree t' (learns (so_h s) n c d f (concat es)) /\
    forall before e after i p v old u, es = before ++ e :: after -> In (EChange i p v old u) e ->
      old = oldv (learns (so_h s) n c d f (concat before) (wkey (so_h s) p)).
Proof.
  induction l as [|o l IH]; intros t f R A F.
  - exists t, []. split; [reflexivity|]. split; [exact R|]. split; [exact A|].
    intros before e after i p v old u E. destruct before; discriminate.
  - inversion F as [|? ? F1 F2]; subst. destruct (observes o t R F1) as (t1 & e1 & E1 & R1 & A1 & O1).
    assert (A1' : agree t1 (learns (so_h s) n c d f e1)).
    { intros k. rewrite A1. unfold learns. apply effs_ext. exact A. }
    destruct (IH t1 _ R1 A1' F2) as (t2 & es & E2 & R2 & A2 & O2).
    exists t2, (e1 :: es). cbn [so_run]. rewrite E1. cbn [bind]. rewrite E2. cbn [bind].
    assert (AP : forall L, learns (so_h s) n c d f (e1 ++ L) = learns (so_h s) n c d (learns (so_h s) n c d f e1) L).
    { intros L. unfold learns. now rewrite flat_map_app, fold_left_app. }
    split; [reflexivity|]. split; [exact R2|]. split; [cbn [concat]; now rewrite AP|].
    intros before e after i p v old u E I. destruct before as [|x before]; cbn [app] in E; injection E as -> E.
    + rewrite (O1 _ _ _ _ _ I). cbn [concat]. unfold learns. cbn. now rewrite A.
    + cbn [concat]. rewrite AP. exact (O2 before e after i p v old u E I).
Qed.
End Observer.

(** ** changes through a recursive handle *)
Section Up.
Variables (D : rune -> Prop) (rf : nat) (h : hdl) (t : tr) (p : gostring) (before : list gostring) (w : gostring) (after : list gostring) (a : attr).
Hypotheses (R : plain_reach D t) (Hd : D (hdelim h)) (Hm : hmode h = ModeUp)
  (EL : full h p :: s_ups (hdelim h) (full h p) = before ++ w :: after)
  (HB : forall x, In x before -> s_probe (hdelim h) (entries t) (runes x) = SMiss)
  (NE : runes w <> []) (G : t_get t (runes w) = Some a).
Lemma search_up : s_search (hdelim h) (is_up h) (entries t) (full h p) = SFound (runes w).
Proof.
  unfold s_search, is_up. rewrite Hm, EL. clear EL. induction before as [|x l IH]; cbn [app s_first].
  - rewrite probe_mem; auto. apply smem_sget. eauto.
  - rewrite HB by now left. apply IH. intros z Hz. apply HB. now right.
Qed.
Theorem remove_up : exists t', Remove (S rf) h t p = Ok (t', true) /\
  forall k, t_get t' k = if has_prefix (runes w) k then None else t_get t k.
Proof.
  destruct (plain_reach_step D rf h t (ORemove p) R Hd) as (t' & E & _ & A).
  cbn [t_step s_step view_of v_delim v_pfx v_up fst snd] in *. rewrite search_up in *. unfold s_remove in *. cbn [s_hit] in *.
  destruct (runes w) as [|c k]; [congruence|]. cbn [fst snd] in *.
  destruct (Remove (S rf) h t p) as [[t1 b]| |]; cbn [bind] in E; try discriminate. injection E as -> ->.
  exists t'. split; [reflexivity|]. intros x. rewrite (abs_get _ _ _ A).
  rewrite (filter_sget (fun k' => negb (has_prefix (c :: k) k'))). now destruct (has_prefix (c :: k) x).
Qed.
Theorem tag_up v : exists t', SetTag (S rf) h t p v = Ok (t', true) /\
  t_get t' (runes w) = Some (Attr (a_data a) (a_desc a) (a_cmt a) v (a_leaf a) (a_has a) (a_mod a)) /\
  forall k, k <> runes w -> t_get t' k = t_get t k.
Proof.
  destruct (plain_reach_step D rf h t (OSetTag p v) R Hd) as (t' & E & _ & A).
  cbn [t_step s_step view_of v_delim v_pfx v_up fst snd] in *. rewrite search_up in *. cbn [fst snd] in *.
  destruct (SetTag (S rf) h t p v) as [[t1 b]| |]; cbn [bind] in E; try discriminate. injection E as -> ->.
  exists t'. split; [reflexivity|]. split.
  - rewrite (abs_get _ _ _ A), s_upd_get, str_eqb_refl. unfold t_get in G. now rewrite G.
  - intros k K. rewrite (abs_get _ _ _ A), s_upd_get. destruct (str_eqb (runes w) k) eqn:X; [|reflexivity].
    apply str_eqb_eq in X. congruence.
Qed.
Theorem comment_up x y : exists t', SetComment (S rf) h t p x y = Ok (t', true) /\
  t_get t' (runes w) = Some (Attr (a_data a) x y (a_tag a) (a_leaf a) (a_has a) (a_mod a)) /\
  forall k, k <> runes w -> t_get t' k = t_get t k.
Proof.
  destruct (plain_reach_step D rf h t (OSetComment p x y) R Hd) as (t' & E & _ & A).
  cbn [t_step s_step view_of v_delim v_pfx v_up fst snd] in *. rewrite search_up in *. cbn [fst snd] in *.
  destruct (SetComment (S rf) h t p x y) as [[t1 b]| |]; cbn [bind] in E; try discriminate. injection E as -> ->.
  exists t'. split; [reflexivity|]. split.
  - rewrite (abs_get _ _ _ A), s_upd_get, str_eqb_refl. unfold t_get in G. now rewrite G.
  - intros k K. rewrite (abs_get _ _ _ A), s_upd_get. destruct (str_eqb (runes w) k) eqn:X; [|reflexivity].
    apply str_eqb_eq in X. congruence.
Qed.
End Up.
