(** Sequences of store writes: the modified mark, merging and loading of nested maps. *)
From Coq Require Import List NArith Bool Arith Lia Permutation.
From Verif Require Import GoStr Utf8 Node NodeWf InsertProofs MatchProofs Trie Spec TreeOps Refine ApiRefine Reach
  Effect Derived Derived2 Derived3 Derived4 Derived5 Cvter Store StoreProofs.
Import ListNotations.
Open Scope nat_scope.

(** ** a list of writes, each through its own handle *)
Record wr := Wr { wr_s : store; wr_p : gostring; wr_v : gval; wr_c : bool; wr_o : list nodeop }.
Fixpoint wrun (l : list wr) (t : tr) : res (tr * list ev) :=
  match l with
  | [] => Ok (t, [])
  | w :: r =>
      do (t1, _, _, e1) <- setKV (wr_s w) t (wr_p w) (wr_v w) (wr_c w) (wr_o w);
      do (t2, e2) <- wrun r t1; Ok (t2, e1 ++ e2)
  end.
Definition wr_key (w : wr) : skey := wkey (so_h (wr_s w)) (wr_p w).
Definition wr_user (w : wr) : bool := negb (so_loading (wr_s w)).
Definition mod_at (t : tr) (k : skey) : bool := match t_get t k with Some a => a_mod a | None => false end.

(** the methods used by the loading code: comment and tag *)
Definition meta_op (o : nodeop) : Prop := match o with NSetComment _ _ | NSetTag _ => True | _ => False end.
Definition metas (os : list nodeop) (a : attr) : attr := fold_left (fun a o => s_nodeop o a) os a.
Lemma metas_data os : Forall meta_op os -> forall a,
  a_data (metas os a) = a_data a /\ a_has (metas os a) = a_has a /\ a_leaf (metas os a) = a_leaf a.
Proof.
  induction 1 as [|o os Ho _ IH]; intros a; auto. cbn [metas fold_left]. change (fold_left _ os ?x) with (metas os x).
  destruct (IH (s_nodeop o a)) as (-> & -> & ->). destruct o; try destruct Ho; auto.
Qed.

Lemma wattr_data t ld os w v : Forall meta_op os ->
  a_data (wattr t ld os w v) = v /\ a_has (wattr t ld os w v) = true /\
  a_mod (wattr t ld os w v) = (negb ld || mod_at t w).
Proof.
  intros H. unfold wattr, mod_at. destruct ld; cbn [negb orb].
  - unfold fresh_attr. destruct (t_get t w); auto.
  - cbn [s_nodeop a_data a_has a_mod]. destruct (metas_data os H (fresh_attr t w v)) as (A & B & _).
    unfold metas in A, B. rewrite A, B. unfold fresh_attr. destruct (t_get t w); auto.
Qed.

Lemma wrun_app l1 l2 t : wrun (l1 ++ l2) t =
  do (t1, e1) <- wrun l1 t; do (t2, e2) <- wrun l2 t1; Ok (t2, e1 ++ e2).
Proof.
  revert t. induction l1 as [|w l1 IH]; intros t; cbn [wrun app bind].
  - destruct (wrun l2 t) as [[t2 e2]| |]; reflexivity.
  - destruct (setKV _ _ _ _ _ _) as [[[[t1 id] o] e1]| |]; cbn [bind]; auto. rewrite IH.
    destruct (wrun l1 t1) as [[t2 e2]| |]; cbn [bind]; auto.
    destruct (wrun l2 t2) as [[t3 e3]| |]; cbn [bind]; auto. now rewrite app_assoc.
Qed.

(** every write succeeds; the last write of a key decides its data; keys that are not written keep
    all they have, and the only further nodes are forks without data *)
Theorem wrun_spec l : Forall (fun w => Forall meta_op (wr_o w)) l -> forall t, reached t ->
  exists t' e, wrun l t = Ok (t', e) /\ reached t' /\
    (forall k, match assoc_last (map (fun w => (wr_key w, wr_v w)) l) k None with
               | Some v => exists a, t_get t' k = Some a /\ a_data a = v /\ a_has a = true
               | None => match t_get t k with
                         | Some a => t_get t' k = Some a
                         | None => t_get t' k = None \/ t_get t' k = Some (bare false false GNil)
                         end
               end) /\
    (forall k, mod_at t' k = (mod_at t k || existsb (fun w => wr_user w && str_eqb (wr_key w) k) l)).
Proof.
  induction 1 as [|w l Hw _ IH]; intros t R.
  - exists t, []. cbn. repeat split; auto.
    + intros k. destruct (t_get t k); auto.
    + intros k. now rewrite orb_false_r.
  - destruct (setKV_step 0 (wr_s w) t (wr_p w) (wr_v w) (wr_c w) (wr_o w) R)
      as (t1 & id & E1 & S1 & G1 & F1 & N1). fold (wr_key w) in *.
    assert (R1 : reached t1) by (eapply reached_step; eauto).
    destruct (IH t1 R1) as (t2 & e2 & E2 & R2 & A2 & M2).
    destruct (wattr_data t (so_loading (wr_s w)) (wr_o w) (wr_key w) (wr_v w) Hw) as (WD & WH & WM).
    exists t2. eexists. cbn [wrun]. rewrite E1. cbn [bind]. rewrite E2. cbn [bind].
    split; [reflexivity|]. split; auto. split.
    + intros k. specialize (A2 k). cbn [map assoc_last].
      destruct (str_eqb (wr_key w) k) eqn:Ek.
      * apply str_eqb_eq in Ek. subst k.
        assert (X : forall c, assoc_last (map (fun w => (wr_key w, wr_v w)) l) (wr_key w) c =
                  match assoc_last (map (fun w => (wr_key w, wr_v w)) l) (wr_key w) None with
                  | Some v => Some v | None => c end).
        { clear. generalize (wr_key w) as k. induction l as [|x l IH]; intros k c; cbn; auto.
          rewrite IH. destruct (str_eqb (wr_key x) k); [rewrite (IH k (Some (wr_v x)))|]; auto.
          now destruct (assoc_last _ k None). }
        rewrite X. destruct (assoc_last _ (wr_key w) None) as [v|]; auto.
        rewrite G1 in A2. eauto.
      * assert (Hk : k <> wr_key w) by (intros ->; rewrite str_eqb_refl in Ek; discriminate).
        destruct (assoc_last _ k None) as [v|]; auto.
        destruct (t_get t k) as [a|] eqn:G.
        { now rewrite (F1 k a Hk G) in A2. }
        { destruct (N1 k Hk G) as [X|X]; rewrite X in A2; auto. }
    + intros k. rewrite M2. cbn [existsb]. rewrite orb_assoc. f_equal.
      destruct (str_eqb (wr_key w) k) eqn:Ek.
      * apply str_eqb_eq in Ek. subst k. unfold mod_at at 1. rewrite G1, WM, andb_true_r, orb_comm. reflexivity.
      * assert (Hk : k <> wr_key w) by (intros ->; rewrite str_eqb_refl in Ek; discriminate).
        rewrite andb_false_r, orb_false_r. unfold mod_at.
        destruct (t_get t k) as [a|] eqn:G; [now rewrite (F1 k a Hk G)|].
        destruct (N1 k Hk G) as [X|X]; rewrite X; reflexivity.
Qed.

(** keys free of pattern characters stay so *)
Lemma wrun_plain D l : forall t, plain_reach D t ->
  Forall (fun w => D (hdelim (so_h (wr_s w))) /\ forall d, D d -> plain d (wr_key w)) l ->
  forall t' e, wrun l t = Ok (t', e) -> plain_reach D t'.
Proof.
  induction l as [|w l IH]; intros t R H t' e E; inversion H as [|? ? [Hd Hw] Hl]; subst; cbn [wrun] in E.
  - injection E as <- _. exact R.
  - destruct (setKV_step 1 (wr_s w) t (wr_p w) (wr_v w) (wr_c w) (wr_o w) (plain_reach_reached D t R))
      as (t1 & id & E1 & S1 & _). rewrite E1 in E. cbn [bind] in E.
    destruct (wrun l t1) as [[t2 e2]| |] eqn:E2; try discriminate. injection E as <- _.
    eapply IH; [|exact Hl|exact E2]. eapply plain_more; eauto.
    intros d Dd. destruct (so_loading (wr_s w)); exact (Hw d Dd).
Qed.

(** nobody listening, nothing fires *)
Lemma wrun_silent l : Forall (fun w => so_new (wr_s w) = [] /\ so_chg (wr_s w) = [] /\ so_parent (wr_s w) = None) l ->
  forall t t' e, wrun l t = Ok (t', e) -> e = [].
Proof.
  induction 1 as [|w l (H1 & H2 & H3) _ IH]; intros t t' e E; cbn [wrun] in E.
  - now injection E as _ <-.
  - unfold setKV in E. destruct (Set_ _ _ _ _) as [[[t1 id] old]| |]; cbn [bind] in E; try discriminate.
    match type of E with context [wrun l ?x] => destruct (wrun l x) as [[t2 e2]| |] eqn:E2 end; cbn [bind] in E; try discriminate.
    injection E as _ <-. rewrite tryOnSet_listeners. destruct (wr_s w) as [? ? ? ? ? ? ? ? ?]; cbn in H1, H2, H3; subst.
    cbn. rewrite (IH _ _ _ E2). now match goal with |- context [if ?b then [] else []] => destruct b end.
Qed.

(** ** C40: nested maps *)
Fixpoint gval_ind' (P : gval -> Prop)
  (Hb : forall v, match v with GList _ | GMap _ | GAMap _ | GMaps _ | GAMaps _ | GPkg _ _ _ _ => False | _ => True end -> P v)
  (Hl : forall l, Forall P l -> P (GList l))
  (Hm : forall m, Forall (fun e => P (snd e)) m -> P (GMap m))
  (Ha : forall m, Forall (fun e => P (snd e)) m -> P (GAMap m))
  (Hms : forall l, Forall (Forall (fun e : gostring * gval => P (snd e))) l -> P (GMaps l))
  (Has : forall l, Forall (Forall (fun e : gval * gval => P (snd e))) l -> P (GAMaps l))
  (Hp : forall v x y z, P v -> P (GPkg v x y z))
  (v : gval) {struct v} : P v.
Proof.
  pose (rec := gval_ind' P Hb Hl Hm Ha Hms Has Hp).
  destruct v; try (apply Hb; exact I).
  - apply Hl. induction l; constructor; auto.
  - apply Hm. induction m; constructor; auto.
  - apply Ha. induction m; constructor; auto.
  - apply Hms. induction l as [|m l IH]; constructor; auto. clear IH. induction m; constructor; auto.
  - apply Has. induction l as [|m l IH]; constructor; auto. clear IH. induction m; constructor; auto.
  - apply Hp. auto.
Qed.

(** the scalars of a value, each with the place it belongs to: [pos] is the place of the map the
    value sits in, [k] its key there, [ext] goes into a map.  Slices are values, unless [flat]. *)
Section Leaves.
Variable str : gval -> gostring.
Variable flat : bool.
Variable d : rune.
Context {P : Type} (ext : P -> gostring -> P).

Fixpoint gleaves (v : gval) (pos : P) (k : gostring) {struct v} : list (P * gostring * gval) :=
  match v with
  | GPkg v' _ _ _ => gleaves v' pos k
  | GMap m => flat_map (fun e => gleaves (snd e) (ext pos k) (fst e)) m
  | GAMap m => flat_map (fun e => gleaves (snd e) (ext pos k) (str (fst e))) m
  | GMaps l =>
      if flat
      then (fix each i l := match l with
                            | [] => []
                            | m :: r => flat_map (fun e => gleaves (snd e) (ext pos (slot d k i)) (fst e)) m ++ each (S i) r
                            end) 0 l
      else [(pos, k, v)]
  | GAMaps l =>
      if flat
      then (fix each i l := match l with
                            | [] => []
                            | m :: r => flat_map (fun e => gleaves (snd e) (ext pos (slot d k i)) (str (fst e))) m ++ each (S i) r
                            end) 0 l
      else [(pos, k, v)]
  | GList l =>
      if flat
      then (fix each i l := match l with [] => [] | x :: r => gleaves x pos (slot d k i) ++ each (S i) r end) 0 l
      else [(pos, k, v)]
  | _ => [(pos, k, v)]
  end.
End Leaves.

Definition mkw (s : store) (c : bool) (os : list nodeop) (x : gostring * gostring * gval) : wr :=
  let '(p, k, v) := x in Wr (st_withPrefixReplaced s [p]) k v c os.
Definition gl (str : gval -> gostring) (s : store) : gval -> gostring -> gostring -> list (gostring * gostring * gval) :=
  gleaves str (so_flat s) (hdelim (so_h s)) (fun p k => Join (hdelim (so_h s)) [p; k]).

Lemma private_wrun s c os pos k v t :
  privateSetter s pos k v c os t = wrun [mkw s c os (pos, k, v)] t.
Proof.
  unfold privateSetter, mkw. cbn [wrun wr_s wr_p wr_v wr_c wr_o].
  destruct (setKV _ _ _ _ _ _) as [[[[t1 id] o] e]| |]; cbn [bind]; auto. now rewrite app_nil_r.
Qed.
Lemma bind2_app l1 l2 t :
  (do (t1, e1) <- wrun l1 t; do (t2, e2) <- wrun l2 t1; Ok (t2, e1 ++ e2)) = wrun (l1 ++ l2) t.
Proof. symmetry. apply wrun_app. Qed.

Section LV.
Variable str : gval -> gostring.
Lemma loadVal_wrun s c os v : forall pos k t,
  loadVal str s c os v pos k t = wrun (map (mkw s c os) (gl str s v pos k)) t.
Proof.
  unfold gl.
  induction v as [v Hv|l IH|m IH|m IH|l IH|l IH|v x y z IH] using gval_ind'; intros pos k t; cbn [loadVal gleaves].
  - destruct v; try destruct Hv; apply private_wrun.
  - destruct (so_flat s) eqn:F; [|apply private_wrun]. generalize 0 as i. revert t.
    induction IH as [|v l Hv _ IHl]; intros t i; cbn [map wrun]; auto.
    rewrite map_app, wrun_app, Hv. destruct (wrun _ t) as [[t1 e1]| |]; cbn [bind]; auto. now rewrite IHl.
  - revert t. induction IH as [|[k' v] m Hv _ IHm]; intros t; cbn [flat_map map wrun fst snd]; auto.
    rewrite map_app, wrun_app. cbn [snd] in Hv. rewrite Hv. destruct (wrun _ t) as [[t1 e1]| |]; cbn [bind]; auto. now rewrite IHm.
  - revert t. induction IH as [|[k' v] m Hv _ IHm]; intros t; cbn [flat_map map wrun fst snd]; auto.
    rewrite map_app, wrun_app. cbn [snd] in Hv. rewrite Hv. destruct (wrun _ t) as [[t1 e1]| |]; cbn [bind]; auto. now rewrite IHm.
  - destruct (so_flat s) eqn:F; [|apply private_wrun]. generalize 0 as i. revert t.
    induction IH as [|m l Hm _ IHl]; intros t i; cbn [map wrun]; auto.
    rewrite map_app, wrun_app.
    assert (X : forall t, (fix go (m : list (gostring * gval)) (t : tr) :=
                    match m with
                    | [] => Ok (t, [])
                    | (k', v') :: r =>
                        do (t1, e1) <- loadVal str s c os v' (Join (hdelim (so_h s)) [pos; slot (hdelim (so_h s)) k i]) k' t;
                        do (t2, e2) <- go r t1; Ok (t2, e1 ++ e2)
                    end) m t =
               wrun (map (mkw s c os) (flat_map (fun e => gleaves str true (hdelim (so_h s)) (fun p k => Join (hdelim (so_h s)) [p; k]) (snd e) (Join (hdelim (so_h s)) [pos; slot (hdelim (so_h s)) k i]) (fst e)) m)) t).
    { clear - Hm. induction Hm as [|[k' v] m Hv _ IHm]; intros t; cbn [flat_map map wrun fst snd]; auto.
      rewrite map_app, wrun_app. cbn [snd] in Hv. rewrite Hv. destruct (wrun _ t) as [[t1 e1]| |]; cbn [bind]; auto. now rewrite IHm. }
    rewrite X. destruct (wrun _ t) as [[t1 e1]| |]; cbn [bind]; auto. now rewrite IHl.
  - destruct (so_flat s) eqn:F; [|apply private_wrun]. generalize 0 as i. revert t.
    induction IH as [|m l Hm _ IHl]; intros t i; cbn [map wrun]; auto.
    rewrite map_app, wrun_app.
    assert (X : forall t, (fix go (m : list (gval * gval)) (t : tr) :=
                    match m with
                    | [] => Ok (t, [])
                    | (k', v') :: r =>
                        do (t1, e1) <- loadVal str s c os v' (Join (hdelim (so_h s)) [pos; slot (hdelim (so_h s)) k i]) (str k') t;
                        do (t2, e2) <- go r t1; Ok (t2, e1 ++ e2)
                    end) m t =
               wrun (map (mkw s c os) (flat_map (fun e => gleaves str true (hdelim (so_h s)) (fun p k => Join (hdelim (so_h s)) [p; k]) (snd e) (Join (hdelim (so_h s)) [pos; slot (hdelim (so_h s)) k i]) (str (fst e))) m)) t).
    { clear - Hm. induction Hm as [|[k' v] m Hv _ IHm]; intros t; cbn [flat_map map wrun fst snd]; auto.
      rewrite map_app, wrun_app. cbn [snd] in Hv. rewrite Hv. destruct (wrun _ t) as [[t1 e1]| |]; cbn [bind]; auto. now rewrite IHm. }
    rewrite X. destruct (wrun _ t) as [[t1 e1]| |]; cbn [bind]; auto. now rewrite IHl.
  - apply IH.
Qed.

Lemma loadMap_wrun s c os m : forall pos t,
  loadMap str s c os m pos t = wrun (map (mkw s c os) (flat_map (fun e => gl str s (snd e) pos (fst e)) m)) t.
Proof.
  induction m as [|[k v] m IH]; intros pos t; cbn [loadMap flat_map map wrun fst snd]; auto.
  rewrite map_app, wrun_app, loadVal_wrun. destruct (wrun _ t) as [[t1 e1]| |]; cbn [bind]; auto. now rewrite IH.
Qed.
Lemma loadMapDedicated_wrun s c m : forall pos t,
  loadMapDedicated str s c m pos t =
  wrun (flat_map (fun e => map (mkw s c [NSetComment (p_desc (snd e)) (p_cmt (snd e)); NSetTag (p_tag (snd e))])
                               (gl str s (p_value (snd e)) pos (fst e))) m) t.
Proof.
  induction m as [|[k v] m IH]; intros pos t; cbn [loadMapDedicated flat_map map wrun fst snd]; auto.
  rewrite wrun_app, loadVal_wrun. destruct (wrun _ t) as [[t1 e1]| |]; cbn [bind]; auto. now rewrite IH.
Qed.
End LV.

(** the scalars of a nested map with the list of their keys *)
Definition segs_of (x : list gostring * gostring * gval) : list gostring * gval :=
  (fst (fst x) ++ [snd (fst x)], snd x).
Definition leaves (str : gval -> gostring) (flat : bool) (d : rune) (m : gmap) : list (list gostring * gval) :=
  flat_map (fun e => map segs_of (gleaves str flat d (fun l k => l ++ [k]) (snd e) [] (fst e))) m.
(** where a scalar is stored: the segments joined below [p], blanks replaced *)
Definition placed (d : rune) (p : gostring) (e : list gostring * gval) : skey * gval :=
  (runes (replace_byte 32 45 (Join d (p :: fst e))), snd e).

Lemma join_snoc d p l k : Join d [Join d (p :: l); k] = Join d (p :: l ++ [k]).
Proof.
  rewrite <- (join_singleton d k) at 1. rewrite join_assoc. reflexivity.
Qed.

Lemma gleaves_rel str flat d p v : forall l k,
  map (fun x => (Join d [fst (fst x); snd (fst x)], snd x)) (gleaves str flat d (fun q k => Join d [q; k]) v (Join d (p :: l)) k) =
  map (fun e => (Join d (p :: fst e), snd e)) (map segs_of (gleaves str flat d (fun l k => l ++ [k]) v l k)).
Proof.
  induction v as [v Hv|l IH|m IH|m IH|l IH|l IH|v x y z IH] using gval_ind'; intros pos k; cbn [gleaves];
    assert (B : forall w, map (fun x => (Join d [fst (fst x); snd (fst x)], snd x)) [(Join d (p :: pos), k, w)] =
      map (fun e => (Join d (p :: fst e), snd e)) (map segs_of [(pos, k, w)]))
    by (intros w; cbn [map segs_of fst snd]; now rewrite join_snoc).
  - destruct v; try destruct Hv; apply B.
  - destruct flat; [|apply B]. generalize 0 as i.
    induction IH as [|v l Hv _ IHl]; intros i; cbn [map]; auto. rewrite !map_app. f_equal; auto.
  - rewrite join_snoc. induction IH as [|[k' v] m Hv _ IHm]; cbn [flat_map map fst snd]; auto.
    rewrite !map_app. f_equal; auto.
  - rewrite join_snoc. induction IH as [|[k' v] m Hv _ IHm]; cbn [flat_map map fst snd]; auto.
    rewrite !map_app. f_equal; auto.
  - destruct flat; [|apply B]. generalize 0 as i.
    induction IH as [|m l Hm _ IHl]; intros i; cbn [map]; auto. rewrite !map_app. f_equal; auto.
    rewrite join_snoc. clear - Hm. induction Hm as [|[k' v] m Hv _ IHm]; cbn [flat_map map fst snd]; auto.
    rewrite !map_app. f_equal; auto.
  - destruct flat; [|apply B]. generalize 0 as i.
    induction IH as [|m l Hm _ IHl]; intros i; cbn [map]; auto. rewrite !map_app. f_equal; auto.
    rewrite join_snoc. clear - Hm. induction Hm as [|[k' v] m Hv _ IHm]; cbn [flat_map map fst snd]; auto.
    rewrite !map_app. f_equal; auto.
  - apply IH.
Qed.

Lemma mkw_key s c os x : wr_key (mkw s c os x) = runes (replace_byte 32 45 (Join (hdelim (so_h s)) [fst (fst x); snd (fst x)])).
Proof.
  destruct x as [[p k] v]. unfold wr_key, wkey, mkw. cbn [wr_s wr_p fst snd].
  rewrite full_join. cbn [st_withPrefixReplaced dupS so_h withPrefixReplaced hdelim hprefix]. now rewrite join_singleton.
Qed.
Lemma mkw_val s c os x : wr_v (mkw s c os x) = snd x.
Proof. now destruct x as [[p k] v]. Qed.

Lemma gl_placed str s c os p v k :
  map (fun w => (wr_key w, wr_v w)) (map (mkw s c os) (gl str s v p k)) =
  map (placed (hdelim (so_h s)) p) (map segs_of (gleaves str (so_flat s) (hdelim (so_h s)) (fun l k => l ++ [k]) v [] k)).
Proof.
  rewrite map_map. erewrite map_ext by (intros x; rewrite mkw_key, mkw_val; reflexivity).
  pose proof (gleaves_rel str (so_flat s) (hdelim (so_h s)) p v [] k) as H. rewrite join_singleton in H.
  apply (f_equal (map (fun e : gostring * gval => (runes (replace_byte 32 45 (fst e)), snd e)))) in H.
  rewrite !map_map in H. unfold gl. etransitivity; [exact H|]. now rewrite map_map.
Qed.
Lemma loadMap_keys str s c os m p :
  map (fun w => (wr_key w, wr_v w)) (map (mkw s c os) (flat_map (fun e => gl str s (snd e) p (fst e)) m)) =
  map (placed (hdelim (so_h s)) p) (leaves str (so_flat s) (hdelim (so_h s)) m).
Proof.
  induction m as [|[k v] m IH]; auto. unfold leaves in *. cbn [flat_map fst snd]. rewrite !map_app, gl_placed.
  f_equal; auto.
Qed.
Lemma mkw_meta s c os l : Forall meta_op os -> Forall (fun w => Forall meta_op (wr_o w)) (map (mkw s c os) l).
Proof. intros H. apply Forall_forall. intros w Hw. apply in_map_iff in Hw. now destruct Hw as ([[p k] v] & <- & _). Qed.
Lemma mkw_silent s c os l :
  Forall (fun w => so_new (wr_s w) = [] /\ so_chg (wr_s w) = [] /\ so_parent (wr_s w) = None) (map (mkw s c os) l).
Proof. apply Forall_forall. intros w Hw. apply in_map_iff in Hw. now destruct Hw as ([[p k] v] & <- & _). Qed.

(** Merge, for any map in any order: no panic, no handler call, the last scalar for a key decides
    its data, nothing else changes but forks without data *)
Theorem merge_spec str s t p m :
  reached t ->
  let L := map (placed (hdelim (so_h s)) p) (leaves str (so_flat s) (hdelim (so_h s)) m) in
  exists t', st_Merge str s t p m = Ok (t', []) /\ reached t' /\
    (forall k, match assoc_last L k None with
               | Some v => exists a, t_get t' k = Some a /\ a_data a = v /\ a_has a = true
               | None => match t_get t k with
                         | Some a => t_get t' k = Some a
                         | None => t_get t' k = None \/ t_get t' k = Some (bare false false GNil)
                         end
               end) /\
    (forall k, mod_at t' k = (mod_at t k || negb (so_loading s) && existsb (fun e => str_eqb (fst e) k) L)).
Proof.
  intros R L. unfold st_Merge. rewrite loadMap_wrun.
  destruct (wrun_spec (map (mkw s false []) (flat_map (fun e => gl str s (snd e) p (fst e)) m))
              (mkw_meta _ _ _ _ (Forall_nil _)) t R) as (t' & e & E & R' & A & M).
  exists t'. assert (e = []) as -> by (eapply wrun_silent; [|exact E]; apply mkw_silent).
  split; auto. split; auto. split.
  - intros k. specialize (A k). rewrite loadMap_keys in A. exact A.
  - intros k. rewrite M. f_equal. subst L. rewrite <- (loadMap_keys str s false []).
    generalize (flat_map (fun e => gl str s (snd e) p (fst e)) m) as l. clear.
    induction l as [|[[p' k'] v'] l IH]; cbn [map existsb fst]; [now rewrite andb_false_r|].
    rewrite IH. unfold wr_user. cbn [mkw wr_s st_withPrefixReplaced dupS so_loading]. now destruct (so_loading s).
Qed.

(** the merged keys can be read back *)
Theorem merge_read D rf str s t p m h q e :
  plain_reach D t -> D (hdelim (so_h s)) -> D (hdelim h) ->
  let L := map (placed (hdelim (so_h s)) p) (leaves str (so_flat s) (hdelim (so_h s)) m) in
  (forall x d, In x L -> D d -> plain d (fst x)) -> NoDup (map fst L) ->
  In e (leaves str (so_flat s) (hdelim (so_h s)) m) ->
  runes (full h q) = fst (placed (hdelim (so_h s)) p e) ->
  exists t' r, st_Merge str s t p m = Ok (t', []) /\ plain_reach D t' /\
    Query (S rf) h t' q = Ok r /\ q_data r = snd e /\ st_MustGet (S rf) (Sto h false [] [] [] [] None false false) t' q = Ok (snd e).
Proof.
  intros R Hd Hh L PL ND He Hq.
  destruct (merge_spec str s t p m (plain_reach_reached D t R)) as (t' & E & _ & A & _). fold L in A.
  assert (R' : plain_reach D t').
  { unfold st_Merge in E. rewrite loadMap_wrun in E. eapply (wrun_plain D); [exact R| |exact E].
    apply Forall_forall. intros w Hw. split.
    - apply in_map_iff in Hw. destruct Hw as ([[p' k'] v'] & <- & _). exact Hd.
    - intros d Dd. apply (PL (wr_key w, wr_v w) d); auto. subst L. rewrite <- (loadMap_keys str s false []).
      apply in_map_iff. eauto. }
  specialize (A (runes (full h q))). rewrite Hq in A.
  rewrite (assoc_last_in L _ None (snd e)) in A; auto.
  2:{ subst L. apply in_map_iff. exists e. split; auto. }
  destruct A as (a & G & Da & Ha). rewrite <- Hq in G.
  destruct (query_present D rf h t' q a R' Hh G) as (r & Er & Dr & Br & Fr). rewrite Ha, Da in Dr.
  exists t', r. repeat split; auto. unfold st_MustGet, MustGet. cbn [so_h]. rewrite Er. cbn [bind].
  rewrite Br, Fr, Dr. destruct (a_leaf a); cbn; rewrite ?andb_false_r; reflexivity.
Qed.

(** two iteration orders of the same nested map *)
Inductive same_val : gval -> gval -> Prop :=
| sv_refl v : same_val v v
| sv_trans a b c : same_val a b -> same_val b c -> same_val a c
| sv_perm m m' : Permutation m m' -> same_val (GMap m) (GMap m')
| sv_in l k v v' r : same_val v v' -> same_val (GMap (l ++ (k, v) :: r)) (GMap (l ++ (k, v') :: r))
| sv_aperm m m' : Permutation m m' -> same_val (GAMap m) (GAMap m')
| sv_ain l k v v' r : same_val v v' -> same_val (GAMap (l ++ (k, v) :: r)) (GAMap (l ++ (k, v') :: r)).

Lemma flat_map_perm {A B} (f : A -> list B) l l' : Permutation l l' -> Permutation (flat_map f l) (flat_map f l').
Proof.
  induction 1; cbn; auto.
  - now apply Permutation_app_head.
  - rewrite !app_assoc. apply Permutation_app_tail, Permutation_app_comm.
  - eapply Permutation_trans; eauto.
Qed.
Lemma gleaves_same str flat d {P} (ext : P -> gostring -> P) v v' : same_val v v' -> forall pos k,
  Permutation (gleaves str flat d ext v pos k) (gleaves str flat d ext v' pos k).
Proof.
  induction 1 as [v|a b c _ IH1 _ IH2|m m' H|l k v v' r _ IH|m m' H|l k v v' r _ IH]; intros pos k0; auto.
  - eapply Permutation_trans; eauto.
  - cbn [gleaves]. now apply flat_map_perm.
  - cbn [gleaves]. rewrite !flat_map_app. cbn [flat_map]. apply Permutation_app_head, Permutation_app_tail, IH.
  - cbn [gleaves]. now apply flat_map_perm.
  - cbn [gleaves]. rewrite !flat_map_app. cbn [flat_map]. apply Permutation_app_head, Permutation_app_tail, IH.
Qed.
Lemma leaves_gleaves str flat d m k :
  map segs_of (gleaves str flat d (fun l k => l ++ [k]) (GMap m) [] k) =
  map (fun e => (k :: fst e, snd e)) (leaves str flat d m).
Proof.
  assert (X : forall v l k, gleaves str flat d (fun l k => l ++ [k]) v l k =
                        map (fun x => (l ++ fst (fst x), snd (fst x), snd x)) (gleaves str flat d (fun l k => l ++ [k]) v [] k)).
  { clear. intros v. induction v as [v Hv|l IH|m IH|m IH|l IH|l IH|v x y z IH] using gval_ind'; intros pos k; cbn [gleaves];
    assert (B : forall w, [(pos, k, w)] =
      map (fun x : list gostring * gostring * gval => (pos ++ fst (fst x), snd (fst x), snd x)) [([], k, w)])
    by (intros w; cbn [map fst snd]; now rewrite app_nil_r);
    assert (N : forall A f g m, Forall (fun e : A * gval => forall l k,
         gleaves str flat d (fun l k => l ++ [k]) (snd e) l k =
           map (fun x => (l ++ fst (fst x), snd (fst x), snd x)) (gleaves str flat d (fun l k => l ++ [k]) (snd e) [] k)) m ->
         flat_map (fun e => gleaves str flat d (fun l k => l ++ [k]) (snd e) (pos ++ [g]) (f (fst e))) m =
         map (fun x => (pos ++ fst (fst x), snd (fst x), snd x))
           (flat_map (fun e => gleaves str flat d (fun l k => l ++ [k]) (snd e) [g] (f (fst e))) m)).
    1,3,5,7,9,11,13: (intros A f g m0 Hm; induction Hm as [|[k' v'] m0 Hv0 _ IHm]; cbn [flat_map map fst snd]; auto;
      rewrite map_app, <- IHm; f_equal; cbn [snd] in Hv0; rewrite (Hv0 (pos ++ [g])), (Hv0 [g]), map_map;
      apply map_ext; intros [[a b] c]; cbn; now rewrite <- app_assoc).
    - destruct v; try destruct Hv; apply B.
    - destruct flat; [|apply B]. generalize 0 as i.
      induction IH as [|v l Hv _ IHl]; intros i; cbn [map]; auto. rewrite !map_app. f_equal; auto.
    - apply (N _ (fun x => x)). exact IH.
    - apply (N _ str). exact IH.
    - destruct flat; [|apply B]. generalize 0 as i.
      induction IH as [|m l Hm _ IHl]; intros i; cbn [map]; auto. rewrite !map_app. f_equal; auto.
      apply (N _ (fun x => x)). exact Hm.
    - destruct flat; [|apply B]. generalize 0 as i.
      induction IH as [|m l Hm _ IHl]; intros i; cbn [map]; auto. rewrite !map_app. f_equal; auto.
      apply (N _ str). exact Hm.
    - apply IH. }
  cbn [gleaves app]. unfold leaves. induction m as [|[k' v] m IH]; auto. cbn [flat_map fst snd].
  rewrite !map_app, IH. f_equal. rewrite X, !map_map. apply map_ext. now intros [[a b] c].
Qed.
Lemma leaves_same str flat d m m' : same_val (GMap m) (GMap m') -> Permutation (leaves str flat d m) (leaves str flat d m').
Proof.
  intros H. pose proof (gleaves_same str flat d (fun l k => l ++ [k]) _ _ H [] []) as P.
  apply (Permutation_map segs_of) in P. rewrite !leaves_gleaves in P.
  apply (Permutation_map (fun e : list gostring * gval => (tl (fst e), snd e))) in P. rewrite !map_map in P.
  cbn [fst snd tl] in P.
  rewrite (map_ext _ (fun x => x)) in P by now intros [? ?]. rewrite map_id in P.
  rewrite (map_ext _ (fun x => x)) in P by now intros [? ?]. now rewrite map_id in P.
Qed.

(** the order in which Go walks the maps does not matter as long as no two scalars share a key *)
Theorem merge_order str s t p m m' t1 t2 :
  reached t -> same_val (GMap m) (GMap m') ->
  NoDup (map fst (map (placed (hdelim (so_h s)) p) (leaves str (so_flat s) (hdelim (so_h s)) m))) ->
  st_Merge str s t p m = Ok (t1, []) -> st_Merge str s t p m' = Ok (t2, []) ->
  forall k, old_at t1 k = old_at t2 k /\ mod_at t1 k = mod_at t2 k.
Proof.
  intros R SV ND E1 E2 k.
  destruct (merge_spec str s t p m R) as (x & F1 & _ & A1 & M1). rewrite E1 in F1. injection F1 as <-.
  destruct (merge_spec str s t p m' R) as (x & F2 & _ & A2 & M2). rewrite E2 in F2. injection F2 as <-.
  specialize (A1 k). specialize (A2 k).
  pose proof (Permutation_map (placed (hdelim (so_h s)) p) (leaves_same str (so_flat s) (hdelim (so_h s)) m m' SV)) as PM.
  split.
  - rewrite <- (assoc_last_perm _ _ k PM ND) in A2. unfold old_at.
    destruct (assoc_last _ k None) as [v|].
    + destruct A1 as (a & -> & -> & _), A2 as (b & -> & -> & _). reflexivity.
    + destruct (t_get t k); [now rewrite A1, A2|]. destruct A1 as [->| ->], A2 as [->| ->]; reflexivity.
  - rewrite M1, M2. do 2 f_equal. clear - PM.
    revert PM. generalize (map (placed (hdelim (so_h s)) p) (leaves str (so_flat s) (hdelim (so_h s)) m)),
      (map (placed (hdelim (so_h s)) p) (leaves str (so_flat s) (hdelim (so_h s)) m')). intros l l' PM.
    induction PM as [|x a b _ IH|x y a|a b c _ IH1 _ IH2]; cbn; auto; try congruence.
    rewrite !orb_assoc; f_equal; apply orb_comm.
Qed.

(** ** C41: Merge of the trie *)
(** nested maps whose scalars are neither nil nor slices *)
Fixpoint maps_only (v : gval) : bool :=
  match v with
  | GMap m => forallb (fun e => maps_only (snd e)) m
  | GNil | GList _ | GMaps _ => false
  | GAMap _ | GAMaps _ | GPkg _ _ _ _ => false
  | _ => true
  end.
(** the key the trie's Merge writes a scalar to: only the last map's key is kept as prefix *)
Definition tkey (h : hdl) (p : gostring) (segs : list gostring) : gostring :=
  match rev segs with
  | [] => []
  | [k] => Join (hdelim h) [hprefix h; p; k]
  | k :: k' :: _ => Join (hdelim h) [k'; k]
  end.

Definition quiet (h : hdl) : store := Sto h true [] [] [] [] None false false.
Definition qw (x : hdl * gostring * gval) : wr := let '(h, k, v) := x in Wr (quiet h) k v false [].
Definition hgl (d : rune) : gval -> hdl -> gostring -> list (hdl * gostring * gval) :=
  gleaves (fun _ => []) false d (fun h k => withPrefixReplaced h [k]).
Lemma quiet_set h t k v : wrun [qw (h, k, v)] t = do (t', _, _) <- Set_ h t k v; Ok (t', []).
Proof.
  cbn [wrun qw wr_s wr_p wr_v wr_c wr_o]. unfold setKV. cbn [quiet so_h so_loading negb].
  destruct (Set_ h t k v) as [[[t1 id] o]| |]; reflexivity.
Qed.
Lemma tload_wrun d v : maps_only v = true -> forall h k t,
  tloadVal h v k t = do (t', _) <- wrun (map qw (hgl d v h k)) t; Ok t'.
Proof.
  unfold hgl.
  induction v as [v Hv|l IH|m IH|m IH|l IH|l IH|v x y z IH] using gval_ind'; intros M h k t; cbn [tloadVal gleaves]; try discriminate.
  - destruct v; try destruct Hv; try discriminate; cbn [tloadVal gleaves map]; rewrite quiet_set;
      destruct (Set_ h t k _) as [[[t1 id] o]| |]; reflexivity.
  - cbn [maps_only] in M. revert t M. induction IH as [|[k' v] m Hv _ IHm]; intros t M; cbn [flat_map map wrun fst snd]; auto.
    cbn [forallb snd] in M. apply andb_true_iff in M as [M1 M2]. cbn [snd] in Hv.
    rewrite map_app, wrun_app, (Hv M1). destruct (wrun _ t) as [[t1 e1]| |]; cbn [bind]; auto.
    rewrite (IHm t1 M2). destruct (wrun _ t1) as [[t2 e2]| |]; reflexivity.
Qed.
Lemma tloadMap_wrun d m : forallb (fun e => maps_only (snd e)) m = true -> forall h t,
  tloadMap h m t = do (t', _) <- wrun (map qw (flat_map (fun e => hgl d (snd e) h (fst e)) m)) t; Ok t'.
Proof.
  induction m as [|[k v] m IH]; intros M h t; cbn [tloadMap flat_map map wrun fst snd]; auto.
  cbn [forallb snd] in M. apply andb_true_iff in M as [M1 M2].
  rewrite map_app, wrun_app, (tload_wrun d v M1). destruct (wrun _ t) as [[t1 e1]| |]; cbn [bind]; auto.
  rewrite (IH M2). destruct (wrun _ t1) as [[t2 e2]| |]; reflexivity.
Qed.

Definition under (h0 : hdl) (l : list gostring) (h : hdl) : Prop :=
  hdelim h = hdelim h0 /\ hprefix h = match rev l with [] => hprefix h0 | x :: _ => x end.
Definition tseg (h0 : hdl) (e : list gostring * gval) : gostring * gval :=
  (match rev (fst e) with
   | [] => []
   | [k] => Join (hdelim h0) [hprefix h0; k]
   | k :: k' :: _ => Join (hdelim h0) [k'; k]
   end, snd e).
Lemma hgl_segs str d h0 v : maps_only v = true -> forall l h k, under h0 l h ->
  map (fun x => (full (fst (fst x)) (snd (fst x)), snd x)) (hgl d v h k) =
  map (tseg h0) (map segs_of (gleaves str false d (fun l k => l ++ [k]) v l k)).
Proof.
  unfold hgl.
  induction v as [v Hv|l IH|m IH|m IH|l IH|l IH|v x y z IH] using gval_ind'; intros M pos h k U; cbn [gleaves]; try discriminate.
  - assert (B : forall w, map (fun x => (full (fst (fst x)) (snd (fst x)), snd x)) [(h, k, w)] =
       map (tseg h0) (map segs_of [(pos, k, w)])).
    { intros w. unfold segs_of, tseg. cbn [map fst snd]. rewrite rev_app_distr. cbn [rev app].
      destruct U as [U1 U2]. rewrite full_join, U1, U2. destruct (rev pos); reflexivity. }
    destruct v; try destruct Hv; try discriminate; apply B.
  - cbn [maps_only] in M. revert M. induction IH as [|[k' v] m Hv _ IHm]; intros M; cbn [flat_map map fst snd]; auto.
    cbn [forallb snd] in M. apply andb_true_iff in M as [M1 M2]. cbn [snd] in Hv.
    rewrite !map_app. f_equal; auto. apply Hv; auto. destruct U as [U1 U2]. split.
    + exact U1.
    + rewrite rev_app_distr. cbn [rev app withPrefixReplaced hprefix]. apply join_singleton.
Qed.

(** what the trie's Merge does with nested maps *)
Theorem tmerge_spec str h t p m :
  reached t -> forallb (fun e => maps_only (snd e)) m = true ->
  let L := map (fun e => (runes (replace_byte 32 45 (tkey h p (fst e))), snd e)) (leaves str false (hdelim h) m) in
  exists t', Merge h t p m = Ok t' /\ reached t' /\
    forall k, match assoc_last L k None with
               | Some v => exists a, t_get t' k = Some a /\ a_data a = v /\ a_has a = true
               | None => match t_get t k with
                         | Some a => t_get t' k = Some a
                         | None => t_get t' k = None \/ t_get t' k = Some (bare false false GNil)
                         end
               end.
Proof.
  intros R M L. unfold Merge. rewrite (tloadMap_wrun (hdelim h) m M).
  set (h0 := withPrefix h [p]).
  assert (HM : Forall (fun w => Forall meta_op (wr_o w)) (map qw (flat_map (fun e => hgl (hdelim h) (snd e) h0 (fst e)) m))).
  { apply Forall_forall. intros w Hw. apply in_map_iff in Hw. destruct Hw as ([[a b] c] & <- & _). constructor. }
  destruct (wrun_spec _ HM t R) as (t' & e & E & R' & A & _). rewrite E. cbn [bind].
  exists t'. split; auto. split; auto. intros k. specialize (A k).
  replace (map (fun w => (wr_key w, wr_v w)) (map qw (flat_map (fun e => hgl (hdelim h) (snd e) h0 (fst e)) m))) with L in A; [exact A|].
  subst L. rewrite map_map. clear - M.
  assert (X : forall e : list gostring * gval, fst (tseg h0 e) = tkey h p (fst e)).
  { intros [segs v]. unfold tseg, tkey. cbn [fst snd]. destruct (rev segs) as [|a [|b r]]; auto.
    unfold h0. cbn [withPrefix hdelim hprefix]. rewrite join1_join. rewrite <- (join_singleton (hdelim h) a) at 1.
    rewrite join_assoc. reflexivity. }
  unfold leaves. induction m as [|[k v] m IH]; auto. cbn [forallb snd] in M. apply andb_true_iff in M as [M1 M2].
  cbn [flat_map fst snd]. rewrite !map_app, IH by auto. f_equal.
  pose proof (hgl_segs str (hdelim h) h0 v M1 [] h0 k (conj eq_refl eq_refl)) as H.
  apply (f_equal (map (fun e : gostring * gval => (runes (replace_byte 32 45 (fst e)), snd e)))) in H.
  rewrite !map_map in H. rewrite map_map. 
  etransitivity; [|etransitivity; [symmetry; exact H|]].
  - apply map_ext. intros x. cbn [fst snd]. now rewrite X.
  - apply map_ext. now intros [[a b] c].
Qed.

(** a map without nested maps ends up where it belongs *)
Theorem tmerge_flat h t p m :
  reached t -> forallb (fun e => maps_only (snd e) && negb match snd e with GMap _ => true | _ => false end) m = true ->
  let L := map (fun e => (runes (replace_byte 32 45 (Join (hdelim h) [hprefix h; p; fst e])), snd e)) m in
  exists t', Merge h t p m = Ok t' /\ reached t' /\
    forall k, match assoc_last L k None with
               | Some v => exists a, t_get t' k = Some a /\ a_data a = v /\ a_has a = true
               | None => match t_get t k with
                         | Some a => t_get t' k = Some a
                         | None => t_get t' k = None \/ t_get t' k = Some (bare false false GNil)
                         end
               end.
Proof.
  intros R F L.
  assert (M : forallb (fun e => maps_only (snd e)) m = true).
  { clear -F. rewrite forallb_forall in *. intros e He. specialize (F e He). now apply andb_true_iff in F. }
  destruct (tmerge_spec (fun _ => []) h t p m R M) as (t' & E & R' & A). exists t'. repeat split; auto.
  replace L with (map (fun e => (runes (replace_byte 32 45 (tkey h p (fst e))), snd e)) (leaves (fun _ => []) false (hdelim h) m)); auto.
  subst L. clear - F. unfold leaves. induction m as [|[k v] m IH]; auto. cbn [forallb snd] in F.
  apply andb_true_iff in F as [F1 F2]. cbn [flat_map fst snd map]. rewrite map_app, IH by auto.
  destruct v; try discriminate; try reflexivity. now rewrite andb_false_r in F1.
Qed.
