(** Where the Merge of the trie puts every value of any nested map: maps, slices of maps, slices. *)
From Coq Require Import List NArith Bool Lia.
From Verif Require Import GoStr Utf8 Node Trie Spec TreeOps Refine Reach Effect Derived Derived2 Derived3 Derived4 Derived5 Cvter Store StoreProofs MergeProofs.
Import ListNotations.
Open Scope nat_scope.

(** a step from a value to one in it: the entry [k] of a map, the entry [k] of the [i]th map of
    a slice of maps, the [i]th element of a slice *)
Inductive into := InMap (k : gostring) | InMaps (i : nat) (k : gostring) | InList (i : nat).

(** the values in [v] that are neither maps nor slices, each with the way to it *)
Fixpoint ways (v : gval) : list (list into * gval) :=
  match v with
  | GMap m => flat_map (fun e => map (fun x => (InMap (fst e) :: fst x, snd x)) (ways (snd e))) m
  | GMaps l =>
      (fix each i l := match l with
                       | [] => []
                       | m :: r => flat_map (fun e => map (fun x => (InMaps i (fst e) :: fst x, snd x)) (ways (snd e))) m ++ each (S i) r
                       end) 0 l
  | GList l =>
      (fix each i l := match l with
                       | [] => []
                       | w :: r => map (fun x => (InList i :: fst x, snd x)) (ways w) ++ each (S i) r
                       end) 0 l
  | _ => [([], v)]
  end.

(** the key a value is written to: entering a map forgets the prefix [q] and makes the key [k] the
    prefix; entering a map of a slice keeps both; entering a slice puts the prefix before the key,
    where it is put once more in the end *)
Fixpoint place (d : rune) (q k : gostring) (w : list into) : gostring :=
  match w with
  | [] => Join d [q; k]
  | InMap k' :: r => place d k k' r
  | InMaps i k' :: r => place d (Join d [q; slot d k i]) k' r
  | InList i :: r => place d q ((if is_nil q then [] else q ++ [delim_byte d]) ++ slot d k i) r
  end.
Definition places (d : rune) (q : gostring) (m : gmap) : list (gostring * gval) :=
  flat_map (fun e => map (fun x => (place d q (fst e) (fst x), snd x)) (ways (snd e))) m.
Definition is_GNil (v : gval) : bool := match v with GNil => true | _ => false end.

(** the writes in order; nil is a panic *)
Fixpoint puts (l : list (hdl * gostring * gval)) (t : tr) : res tr :=
  match l with
  | [] => Ok t
  | (h, k, v) :: r => if is_GNil v then Panic else do (t', _, _) <- Set_ h t k v; puts r t'
  end.
Lemma puts_app l1 l2 : forall t, puts (l1 ++ l2) t = do t1 <- puts l1 t; puts l2 t1.
Proof.
  induction l1 as [|[[h k] v] l IH]; intros t; cbn [app puts bind]; auto.
  destruct (is_GNil v); auto. destruct (Set_ h t k v) as [[[t1 i] o]| |]; cbn [bind]; auto.
Qed.
Fixpoint hways (v : gval) (h : hdl) (k : gostring) : list (hdl * gostring * gval) :=
  match v with
  | GMap m => flat_map (fun e => hways (snd e) (withPrefixReplaced h [k]) (fst e)) m
  | GMaps l =>
      (fix each i l := match l with
                       | [] => []
                       | m :: r => flat_map (fun e => hways (snd e) (withPrefix h [slot (hdelim h) k i]) (fst e)) m ++ each (S i) r
                       end) 0 l
  | GList l =>
      (fix each i l := match l with
                       | [] => []
                       | w :: r => hways w h ((if is_nil (hprefix h) then [] else hprefix h ++ [delim_byte (hdelim h)]) ++ slot (hdelim h) k i) ++ each (S i) r
                       end) 0 l
  | _ => [(h, k, v)]
  end.
Lemma tloadVal_puts v : forall h k t, tloadVal h v k t = puts (hways v h k) t.
Proof.
  induction v as [v Hv|l IH|m IH|m IH|l IH|l IH|v x y z IH] using gval_ind'; intros h k t; cbn [tloadVal hways].
  - destruct v; try destruct Hv; cbn [tloadVal hways puts is_GNil]; reflexivity.
  - generalize 0 as i. revert t. induction IH as [|v l Hv _ IHl]; intros t i; cbn [puts]; auto.
    rewrite puts_app, Hv. destruct (puts _ t) as [t1| |]; cbn [bind]; auto.
  - revert t. induction IH as [|[k' v] m Hv _ IHm]; intros t; cbn [flat_map fst snd puts]; auto.
    cbn [snd] in Hv. rewrite puts_app, Hv. destruct (puts _ t) as [t1| |]; cbn [bind]; auto.
  - reflexivity.
  - generalize 0 as i. revert t. induction IH as [|m l Hm _ IHl]; intros t i; cbn [puts]; auto.
    rewrite puts_app.
    match goal with |- (do t1 <- ?f m t; _) = _ =>
      assert (X : forall t, f m t = puts (flat_map (fun e => hways (snd e) (withPrefix h [slot (hdelim h) k i]) (fst e)) m) t) end.
    { clear - Hm. induction Hm as [|[k' v] m Hv _ IHm]; intros t; cbn [flat_map fst snd puts]; auto.
      cbn [snd] in Hv. rewrite puts_app, Hv. destruct (puts _ t) as [t1| |]; cbn [bind]; auto. }
    rewrite X. destruct (puts _ t) as [t1| |]; cbn [bind]; auto.
  - reflexivity.
  - reflexivity.
Qed.
Lemma tloadMap_puts m : forall h t, tloadMap h m t = puts (flat_map (fun e => hways (snd e) h (fst e)) m) t.
Proof.
  induction m as [|[k v] m IH]; intros h t; cbn [tloadMap flat_map fst snd puts]; auto.
  rewrite puts_app, tloadVal_puts. destruct (puts _ t) as [t1| |]; cbn [bind]; auto.
Qed.

Definition put_key (x : hdl * gostring * gval) : gostring * gval := (full (fst (fst x)) (snd (fst x)), snd x).
Lemma hways_place d v : forall h k, hdelim h = d ->
  map put_key (hways v h k) = map (fun x => (place d (hprefix h) k (fst x), snd x)) (ways v).
Proof.
  induction v as [v Hv|l IH|m IH|m IH|l IH|l IH|v x y z IH] using gval_ind'; intros h k D; cbn [hways ways];
    try (cbn [map]; unfold put_key; cbn [fst snd place]; rewrite full_join, D; reflexivity).
  - destruct v; try destruct Hv; cbn [hways ways map]; unfold put_key; cbn [fst snd place]; rewrite full_join, D; reflexivity.
  - generalize 0 as i. induction IH as [|v l Hv _ IHl]; intros i; cbn [map]; auto.
    rewrite !map_app, IHl, (Hv _ _ D), map_map. f_equal. apply map_ext. intros x. cbn [fst snd place]. now rewrite D.
  - induction IH as [|[k' v] m Hv _ IHm]; cbn [flat_map fst snd map]; auto. cbn [snd] in Hv.
    rewrite !map_app, IHm, Hv, map_map by auto. f_equal.
  - generalize 0 as i. induction IH as [|m l Hm _ IHl]; intros i; cbn [map]; auto.
    rewrite !map_app, IHl. f_equal. clear - Hm D.
    induction Hm as [|[k' v] m Hv _ IHm]; cbn [flat_map fst snd map]; auto. cbn [snd] in Hv.
    rewrite !map_app, IHm, Hv, map_map by auto. f_equal. apply map_ext. intros x. cbn [fst snd place withPrefix hprefix].
    rewrite join1_join, D. reflexivity.
Qed.

Lemma puts_wrun l : forallb (fun x => negb (is_GNil (snd x))) l = true -> forall t,
  puts l t = do (t', _) <- wrun (map qw l) t; Ok t'.
Proof.
  induction l as [|[[h k] v] l IH]; intros F t; cbn [puts map wrun bind]; auto.
  cbn [forallb snd] in F. apply andb_true_iff in F as [F1 F2]. apply negb_true_iff in F1. rewrite F1.
  cbn [qw wr_s wr_p wr_v wr_c wr_o]. unfold setKV. cbn [quiet so_h so_loading negb].
  destruct (Set_ h t k v) as [[[t1 id] o]| |]; cbn [bind]; auto. rewrite (IH F2).
  cbn [fold_left]. destruct (wrun _ t1) as [[t2 e2]| |]; reflexivity.
Qed.
Lemma puts_panic l : forallb (fun x => negb (is_GNil (snd x))) l = false -> forall t, reached t -> puts l t = Panic.
Proof.
  intros F t R. assert (S : exists l1 h k l2, l = l1 ++ (h, k, GNil) :: l2 /\ forallb (fun x => negb (is_GNil (snd x))) l1 = true).
  { clear - F. induction l as [|[[h k] v] l IH]; [discriminate|]. cbn [forallb snd] in F.
    destruct (is_GNil v) eqn:N.
    - destruct v; try discriminate. exists [], h, k, l. auto.
    - destruct (IH F) as (l1 & h' & k' & l2 & -> & G). exists ((h, k, v) :: l1), h', k', l2. split; auto.
      cbn [forallb snd]. now rewrite N, G. }
  destruct S as (l1 & h & k & l2 & -> & G). rewrite puts_app, (puts_wrun _ G).
  assert (HM : Forall (fun w => Forall meta_op (wr_o w)) (map qw l1)).
  { apply Forall_forall. intros w Hw. apply in_map_iff in Hw. destruct Hw as ([[a b] c] & <- & _). constructor. }
  destruct (wrun_spec _ HM t R) as (t' & e & E & _). rewrite E. reflexivity.
Qed.

Theorem tmerge_places h t p m :
  reached t ->
  let L := map (fun x => (runes (replace_byte 32 45 (fst x)), snd x)) (places (hdelim h) (Join (hdelim h) [hprefix h; p]) m) in
  if existsb (fun x => is_GNil (snd x)) L then Merge h t p m = Panic
  else exists t', Merge h t p m = Ok t' /\ reached t' /\
    forall k, match assoc_last L k None with
               | Some v => exists a, t_get t' k = Some a /\ a_data a = v /\ a_has a = true
               | None => match t_get t k with
                         | Some a => t_get t' k = Some a
                         | None => t_get t' k = None \/ t_get t' k = Some (bare false false GNil)
                         end
               end.
Proof.
  intros R L. unfold Merge. rewrite tloadMap_puts. set (h0 := withPrefix h [p]).
  set (W := flat_map (fun e => hways (snd e) h0 (fst e)) m).
  assert (K : map (fun x => (runes (replace_byte 32 45 (fst (put_key x))), snd x)) W = L).
  { subst L W. unfold places. induction m as [|[k v] m IH]; auto. cbn [flat_map fst snd]. rewrite !map_app, IH. f_equal.
    pose proof (hways_place (hdelim h) v h0 k eq_refl) as H.
    apply (f_equal (map (fun e : gostring * gval => (runes (replace_byte 32 45 (fst e)), snd e)))) in H.
    rewrite !map_map in H. rewrite map_map. etransitivity; [exact H|]. apply map_ext. intros x. cbn [fst snd].
    unfold h0. cbn [withPrefix hprefix]. now rewrite join1_join. }
  assert (B : existsb (fun x => is_GNil (snd x)) L = negb (forallb (fun x => negb (is_GNil (snd x))) W)).
  { rewrite <- K. clear. induction W as [|x W IH]; auto. cbn [map existsb forallb snd]. rewrite IH. now destruct (is_GNil (snd x)). }
  rewrite B. destruct (forallb _ W) eqn:F; cbn [negb]; [|now apply puts_panic].
  rewrite (puts_wrun _ F).
  assert (HM : Forall (fun w => Forall meta_op (wr_o w)) (map qw W)).
  { apply Forall_forall. intros w Hw. apply in_map_iff in Hw. destruct Hw as ([[a b] c] & <- & _). constructor. }
  destruct (wrun_spec _ HM t R) as (t' & e & E & R' & A & _). rewrite E. cbn [bind].
  exists t'. split; auto. split; auto. intros k. specialize (A k).
  replace (map (fun w => (wr_key w, wr_v w)) (map qw W)) with L in A; [exact A|].
  rewrite <- K, map_map. apply map_ext. now intros [[a b] c].
Qed.

(** where a value belongs: the keys and indexes on the way to it, joined *)
Fixpoint belongs (d : rune) (k : gostring) (w : list into) : gostring :=
  match w with
  | [] => k
  | InMap k' :: r => Join d [k; belongs d k' r]
  | InMaps i k' :: r => Join d [slot d k i; belongs d k' r]
  | InList i :: r => belongs d (slot d k i) r
  end.
(** maps and slices are entered only while [bare]: no prefix is set *)
Fixpoint right (bare : bool) (w : list into) : bool :=
  match w with
  | [] => true
  | InMap _ :: r => bare && right false r
  | InMaps _ _ :: r => right false r
  | InList _ :: r => bare && right bare r
  end.
Theorem place_right d w : forall b q k, (b = true -> q = []) -> right b w = true -> place d q k w = Join d [q; belongs d k w].
Proof.
  induction w as [|[k'|i k'|i] w IH]; intros b q k Q H; cbn [place belongs right] in *; auto.
  - apply andb_true_iff in H as [-> H]. rewrite (Q eq_refl), (IH false) by (auto; discriminate).
    set (x := Join d [k; belongs d k' w]). exact (eq_sym (join_singleton d x)).
  - rewrite (IH false) by (auto; discriminate). rewrite join_snoc. symmetry. rewrite <- (join_singleton d q) at 1. exact (join_assoc d [q] [_; _]).
  - apply andb_true_iff in H as [-> H]. rewrite (Q eq_refl). cbn [is_nil app]. now apply (IH true).
Qed.
