(** Several Merges one after the other. *)
From Coq Require Import List NArith ZArith Bool Arith Lia.
From Verif Require Import GoStr Utf8 Node Trie Spec Refine ApiRefine Reach Derived Derived2 Cvter Nested Store StoreProofs MergeProofs LoadProofs Follow Layers.
Import ListNotations.
Open Scope nat_scope.

(** what a map puts below a path: the tree keys of its scalars *)
Definition puts (str : gval -> gostring) (s : store) (x : gostring * gmap) : list (skey * gval) :=
  map (placed (hdelim (so_h s)) (fst x)) (leaves str (so_flat s) (hdelim (so_h s)) (snd x)).
(** Merge for every path and map of a list, by the same store *)
Fixpoint merges (str : gval -> gostring) (s : store) (l : list (gostring * gmap)) (t : tr) : res tr :=
  match l with
  | [] => Ok t
  | x :: r => match st_Merge str s t (fst x) (snd x) with Ok (t', _) => merges str s r t' | Panic => Panic | Fuel => Fuel end
  end.
Lemma merge_data str s t x : reached t ->
  exists t', st_Merge str s t (fst x) (snd x) = Ok (t', []) /\ reached t' /\
    (forall k, data_at t' k = match assoc_last (puts str s x) k None with Some v => Some v | None => data_at t k end) /\
    (forall k, mod_at t' k = (mod_at t k || negb (so_loading s) && existsb (fun e => str_eqb (fst e) k) (puts str s x))).
Proof.
  intros R. destruct (merge_spec str s t (fst x) (snd x) R) as (t' & E & R' & A & M).
  exists t'. split; [exact E|]. split; [exact R'|]. split; [|exact M]. intros k. specialize (A k). unfold puts, data_at.
  destruct (assoc_last _ k None) as [v|].
  - destruct A as (a & -> & Da & Ha). now rewrite Ha, Da.
  - destruct (t_get t k) as [a|]; [now rewrite A|]. destruct A as [->| ->]; reflexivity.
Qed.
Theorem merges_spec str s l : forall t, reached t ->
  exists t', merges str s l t = Ok t' /\ reached t' /\
    (forall k, data_at t' k = match assoc_last (flat_map (puts str s) l) k None with Some v => Some v | None => data_at t k end) /\
    (forall k, mod_at t' k = (mod_at t k || negb (so_loading s) && existsb (fun e => str_eqb (fst e) k) (flat_map (puts str s) l))).
Proof.
  induction l as [|x l IH]; intros t R.
  - exists t. repeat split; auto. intros k. cbn. now rewrite andb_false_r, orb_false_r.
  - destruct (merge_data str s t x R) as (t1 & E1 & R1 & D1 & M1). destruct (IH t1 R1) as (t' & E' & R' & D' & M').
    exists t'. cbn [merges flat_map]. rewrite E1. split; [exact E'|]. split; [exact R'|]. split; intros k.
    + rewrite D', D1, assoc_last_app, (assoc_last_base (flat_map (puts str s) l) k (assoc_last (puts str s x) k None)).
      destruct (assoc_last (flat_map (puts str s) l) k None); reflexivity.
    + rewrite M', M1, existsb_app. destruct (mod_at t k), (so_loading s); cbn; auto.
Qed.
(** two trees that no reader of data or marks can tell apart *)
Definition alike (t t' : tr) : Prop := forall k, data_at t' k = data_at t k /\ mod_at t' k = mod_at t k.
(** the same Merges once more change nothing *)
Theorem merges_again str s l t t1 : reached t -> merges str s l t = Ok t1 -> exists t2, merges str s l t1 = Ok t2 /\ alike t1 t2.
Proof.
  intros R E. destruct (merges_spec str s l t R) as (x & E1 & R1 & D1 & M1). rewrite E in E1. injection E1 as <-.
  destruct (merges_spec str s l t1 R1) as (t2 & E2 & _ & D2 & M2). exists t2. split; [exact E2|]. intros k. split.
  - rewrite D2, D1. now destruct (assoc_last _ k None).
  - rewrite M2, M1. destruct (mod_at t k), (negb (so_loading s) && _); reflexivity.
Qed.
Lemma last_none (L : list (skey * gval)) k : assoc_last L k None = None <-> ~ In k (map fst L).
Proof.
  split; [|intros H; now rewrite assoc_last_out]. induction L as [|[k0 v0] L IH]; cbn [assoc_last map fst]; [tauto|].
  rewrite assoc_last_base. destruct (assoc_last L k None) eqn:E; [discriminate|]. destruct (str_eqb k0 k) eqn:Q; [discriminate|].
  intros _ [->|I]; [|now apply IH]. now rewrite str_eqb_refl in Q.
Qed.
(** Merges of maps without a common key can change places *)
Theorem merges_swap str s a b t : reached t ->
  (forall k, ~ (In k (map fst (flat_map (puts str s) a)) /\ In k (map fst (flat_map (puts str s) b)))) ->
  exists t1 t2, merges str s (a ++ b) t = Ok t1 /\ merges str s (b ++ a) t = Ok t2 /\ alike t1 t2.
Proof.
  intros R N. destruct (merges_spec str s (a ++ b) t R) as (t1 & E1 & _ & D1 & M1).
  destruct (merges_spec str s (b ++ a) t R) as (t2 & E2 & _ & D2 & M2).
  exists t1, t2. split; [exact E1|]. split; [exact E2|]. intros k. rewrite D1, D2, M1, M2, !flat_map_app, !existsb_app. split.
  - rewrite !assoc_last_app. rewrite (assoc_last_base (flat_map (puts str s) a) k (assoc_last (flat_map (puts str s) b) k None)).
    rewrite (assoc_last_base (flat_map (puts str s) b) k (assoc_last (flat_map (puts str s) a) k None)).
    destruct (assoc_last (flat_map (puts str s) a) k None) eqn:EA, (assoc_last (flat_map (puts str s) b) k None) eqn:EB; auto.
    exfalso. apply (N k). split.
    + destruct (in_dec (list_eq_dec N.eq_dec) k (map fst (flat_map (puts str s) a))) as [I|I]; [exact I|]. apply last_none in I. congruence.
    + destruct (in_dec (list_eq_dec N.eq_dec) k (map fst (flat_map (puts str s) b))) as [I|I]; [exact I|]. apply last_none in I. congruence.
  - now rewrite (orb_comm (existsb _ (flat_map (puts str s) b))).
Qed.
(** an earlier Merge whose keys are all in a later one might as well not have been, but for the marks *)
Theorem merges_covered str s a b t : reached t ->
  (forall k, In k (map fst (flat_map (puts str s) a)) -> In k (map fst (flat_map (puts str s) b))) ->
  exists t1 t2, merges str s (a ++ b) t = Ok t1 /\ merges str s b t = Ok t2 /\ alike t1 t2.
Proof.
  intros R N. destruct (merges_spec str s (a ++ b) t R) as (t1 & E1 & _ & D1 & M1).
  destruct (merges_spec str s b t R) as (t2 & E2 & _ & D2 & M2).
  exists t1, t2. split; [exact E1|]. split; [exact E2|]. intros k. rewrite D1, D2, M1, M2, !flat_map_app, !existsb_app. split.
  - rewrite !assoc_last_app. rewrite (assoc_last_base (flat_map (puts str s) b) k (assoc_last (flat_map (puts str s) a) k None)).
    destruct (assoc_last (flat_map (puts str s) b) k None) eqn:EB; auto.
    apply last_none in EB. destruct (assoc_last (flat_map (puts str s) a) k None) eqn:EA; auto.
    exfalso. apply EB, N. destruct (in_dec (list_eq_dec N.eq_dec) k (map fst (flat_map (puts str s) a))) as [I|I]; [exact I|]. apply last_none in I. congruence.
  - do 2 f_equal. destruct (existsb _ (flat_map (puts str s) a)) eqn:EA; auto.
    apply existsb_exists in EA. destruct EA as ([k1 v1] & I & Q). cbn in Q. apply str_eqb_eq in Q. subst k1.
    assert (K : In k (map fst (flat_map (puts str s) b))) by (apply N, in_map_iff; exists (k, v1); auto).
    apply in_map_iff in K. destruct K as ([k2 v2] & Q2 & I2). cbn in Q2. subst k2.
    cbn. apply existsb_exists. exists (k, v2). split; [exact I2|]. apply str_eqb_refl.
Qed.
