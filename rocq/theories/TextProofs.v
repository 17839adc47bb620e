(** What the texts of a store show. *)
From Coq Require Import String.
From Coq Require Import List NArith ZArith Bool Arith Lia.
From Verif Require Import GoStr Utf8 Node NodeWf InsertProofs MatchProofs Trie TreeOps Spec Refine Climb ApiRefine Reach
  Effect Derived Derived2 Derived3 Derived4 CvterProofs Misc Text.
Import ListNotations.
Open Scope nat_scope.
Open Scope list_scope.

(** ** Dump *)
Definition within (x s : gostring) : Prop := exists a b, s = a ++ x ++ b.
(** the nodes with their depth, in the order of Walk *)
Fixpoint levels (lvl : nat) (n : node) : list (nat * node) := (lvl, n) :: flat_map (levels (S lvl)) (nkids n).

Lemma levels_walk n : forall lvl, map snd (levels lvl n) = walk n.
Proof.
  induction n as [n IH] using node_ind'. intros lvl. destruct n as [i p ps ks d de c tg ty]. cbn in *. f_equal.
  rewrite map_flat_map. induction IH as [|k ks Hk _ IHks]; cbn; [reflexivity|]. now rewrite Hk, IHks.
Qed.
Lemma levels_eq lvl n : levels lvl n = (lvl, n) :: flat_map (levels (S lvl)) (nkids n).
Proof. now destruct n. Qed.
Lemma levels_chain n : forall lvl d m, In (d, m) (levels lvl n) <-> exists l, chain n l m /\ lvl + length l = S d.
Proof.
  induction n as [n IH] using node_ind'. intros lvl d m. rewrite levels_eq. rewrite Forall_forall in IH. split.
  - intros [E|H].
    + injection E as -> ->. exists [m]. split; [constructor|cbn; lia].
    + apply in_flat_map in H. destruct H as (c & Hc & H). apply (IH c Hc) in H. destruct H as (l & H & L).
      exists (n :: l). split; [econstructor; eauto|cbn; lia].
  - intros (l & C & L). inversion C as [n0|n0 c l' m0 Hc C']; subst.
    + left. cbn in L. f_equal. lia.
    + right. apply in_flat_map. exists c. split; auto. apply (IH c Hc). exists l'. split; auto. cbn in L. lia.
Qed.
Lemma ents_chain n : forall pre k m, In (k, m) (ents pre n) -> exists l, chain n l m /\ k = pre ++ concat (map npath l).
Proof.
  induction n as [n IH] using node_ind'. intros pre k m. rewrite ents_eq. rewrite Forall_forall in IH. intros [E|H].
  - injection E as <- <-. exists [n]. split; [constructor|]. cbn. now rewrite app_nil_r.
  - apply in_flat_map in H. destruct H as (c & Hc & H). apply (IH c Hc) in H. destruct H as (l & H & ->).
    exists (n :: l). split; [econstructor; eauto|]. cbn. now rewrite app_assoc.
Qed.
Lemma chain_last n l m : chain n l m -> exists l', l = l' ++ [m].
Proof.
  induction 1 as [n|n c l m Hc H [l' ->]]; [exists []; reflexivity|]. now exists (n :: l').
Qed.
Lemma chain_path n l m : wfn n -> chain n l m -> m = n \/ npath m <> [].
Proof.
  intros W C. induction C as [n|n c l m Hc H IH]; auto. right. destruct (wfn_kids _ _ W Hc) as [P W'].
  destruct (IH W') as [->|Q]; auto.
Qed.
Lemma suffix_app a b : has_suffix (a ++ b) b = true.
Proof.
  unfold has_suffix. rewrite app_length. replace (length b <=? length a + length b) with true by (symmetry; apply Nat.leb_le; lia).
  replace (length a + length b - length b) with (length a) by lia. rewrite skipn_app, skipn_all, Nat.sub_diag. cbn.
  apply str_eqb_refl.
Qed.

Section Dump.
Variables (dim lightgreen green : gostring -> gostring) (sprint : gval -> gostring) (q : gostring -> gostring).
Local Notation own := (dump_own dim lightgreen green sprint q).
Local Notation dumpR := (dumpR dim lightgreen green sprint q).
Local Notation Dump := (Dump dim lightgreen green sprint q).
Local Notation dump_line := (dump_line dim lightgreen green sprint q).

Lemma dumpR_levels nc n : forall lvl, dumpR nc lvl n = flat_map (fun e => own nc (fst e) (snd e)) (levels lvl n).
Proof.
  induction n as [n IH] using node_ind'. intros lvl. rewrite levels_eq.
  transitivity (own nc lvl n ++ flat_map (dumpR nc (S lvl)) (nkids n)); [now destruct n|].
  cbn [flat_map fst snd]. f_equal. induction IH as [|k ks Hk _ IHks]; cbn; [reflexivity|].
  now rewrite Hk, IHks, flat_map_app.
Qed.
Lemma flat_map_ext_in {A B} (f g : A -> list B) l : (forall x, In x l -> f x = g x) -> flat_map f l = flat_map g l.
Proof. induction l as [|x l IH]; intros H; cbn; auto. rewrite H by now left. rewrite IH; auto. intros y Hy. apply H. now right. Qed.

(** one line for each node below the root, in the order of Walk, indented by the depth; the root has no line *)
Theorem dump_lines t : reached t -> exists es,
  Dump t = flat_map (fun e => str_repeat (s2b "  ") (fst e) ++ dump_line false (fst e) (snd e)) es /\
  root t :: map snd es = walk (root t) /\
  (forall d n, In (d, n) es <-> exists l, chain (root t) l n /\ length l = S d /\ 0 < d).
Proof.
  intros R. destruct (proj1 (reached_wf t R)) as (P & W & _). exists (flat_map (levels 1) (nkids (root t))).
  unfold Text.Dump. rewrite dumpR_levels. rewrite levels_eq. cbn [flat_map fst snd]. split; [|split].
  - unfold dump_own at 1. rewrite P. cbn [is_nil Nat.ltb Nat.leb str_repeat app]. apply flat_map_ext_in. intros [d n] H.
    apply in_flat_map in H. destruct H as (c & Hc & H). apply levels_chain in H. destruct H as (l & C & L).
    destruct (wfn_kids _ _ W Hc) as [Pc Wc]. unfold dump_own. cbn [fst snd].
    destruct (chain_path _ _ _ Wc C) as [->|Q]; [destruct (npath c); [congruence|reflexivity]|].
    destruct (npath n); [congruence|reflexivity].
  - rewrite <- (levels_walk (root t) 0), levels_eq. reflexivity.
  - intros d n. pose proof (levels_chain (root t) 0 d n) as LC. rewrite levels_eq in LC. split.
    + intros H. assert (D : 0 < d).
      { apply in_flat_map in H. destruct H as (c & Hc & H). apply levels_chain in H. destruct H as (l & C & L).
        inversion C; subst; cbn in L; lia. }
      destruct (proj1 LC) as (l & C & L); [now right|]. exists l. auto.
    + intros (l & C & L & D). destruct (proj2 LC) as [E|E]; auto; [exists l; auto|]. injection E as <- _. lia.
Qed.
Lemma within_flat {A} (f : A -> gostring) l x s : In x l -> within s (f x) -> within s (flat_map f l).
Proof.
  intros H (a & b & E). apply in_split in H. destruct H as (l1 & l2 & ->). exists (flat_map f l1 ++ a), (b ++ flat_map f l2).
  rewrite flat_map_app. cbn [flat_map]. rewrite E, <- !app_assoc. reflexivity.
Qed.
(** a node with data is shown with its kind, key and value *)
Definition kind (leaf : bool) : gostring := s2b (if leaf then "<L>" else "<B>").
Lemma line_data d n : hasData n = true ->
  within (dim (kind (isLeaf n)) ++ s2b " " ++ key n ++ s2b " => " ++ dim (sprint (ndata n))) (dump_line false d n).
Proof.
  intros H. unfold Text.dump_line. rewrite H. unfold within, key. cbv zeta.
  replace (if isBranch n then branchTitle else leafTitle) with (kind (isLeaf n)) by (rewrite isBranch_bit, isLeaf_bit; now destruct (t_leaf (ntype n))).
  match goal with |- exists a b, ?p ++ ?w ++ ?t ++ ?x ++ ?r = _ => exists (p ++ w), r; rewrite <- (app_assoc p w), <- (app_assoc t); reflexivity end.
Qed.
Lemma dump_node t k n : reached t -> In (k, n) (ents [] (root t)) -> k <> [] -> hasData n = true ->
  within (dim (kind (isLeaf n)) ++ s2b " " ++ key n ++ s2b " => " ++ dim (sprint (ndata n))) (Dump t).
Proof.
  intros R H K D. destruct (dump_lines t R) as (es & E & _ & C). rewrite E.
  destruct (ents_chain _ _ _ _ H) as (l & Cl & ->). destruct (proj1 (reached_wf t R)) as (P & W & _).
  assert (L : 1 < length l).
  { inversion Cl as [n0|n0 c l' m0 Hc C']; subst; [cbn in K; rewrite P in K; cbn in K; congruence|].
    destruct (chain_last _ _ _ C') as [l0 ->]. cbn. rewrite app_length. cbn. lia. }
  apply (within_flat _ _ (length l - 1, n)).
  - apply C. exists l. split; [exact Cl|]. lia.
  - cbn [fst snd]. destruct (line_data (length l - 1) n D) as (a & b & ->).
    exists (str_repeat (s2b "  ") (length l - 1) ++ a), b. now rewrite <- !app_assoc.
Qed.
Lemma get_node t k a : reached t -> t_get t k = Some a ->
  exists n, In (k, n) (ents [] (root t)) /\ a = Attr (ndata n) (ndesc n) (ncmt n) (ntag n) (isLeaf n) (hasData n) (modified n).
Proof.
  intros R E. pose proof (proj1 (proj2 (proj1 (reached_wf t R)))) as W.
  unfold t_get, entries in E. rewrite entries_lookup in E. fold (look (root t) k) in E.
  destruct (look (root t) k) as [i|] eqn:L; inversion E; subst.
  apply look_in in L; auto. apply in_ients in L. destruct L as (n & Hn & <-). exists n.
  split; auto. unfold attr_of. cbn. now rewrite isLeaf_bit, hasData_bit, modified_bit.
Qed.
(** every ASCII key that has data is shown with its value *)
Theorem dump_ascii rf hist t outs k a :
  t_run rf hist newTrie = Ok (t, outs) -> ascii_hist hist -> t_get t k = Some a -> a_has a = true -> k <> [] ->
  within (dim (kind (a_leaf a)) ++ s2b " " ++ k ++ s2b " => " ++ dim (sprint (a_data a))) (Dump t).
Proof.
  intros E HA G H K. pose proof (run_reached rf hist newTrie t outs reached_new E) as R.
  destruct (get_node t k a R G) as (n & Hn & ->). cbn [a_has a_data a_leaf] in *.
  rewrite <- (ascii_keys _ _ _ _ E HA _ _ Hn) at 1. now apply (dump_node t k).
Qed.
(** so is every leaf of a store of valid keys *)
Theorem dump_leaf t s a :
  vreach t -> valid_utf8 s = true -> t_get t (runes s) = Some a -> a_leaf a = true -> a_has a = true -> s <> [] ->
  within (dim (s2b "<L>") ++ s2b " " ++ s ++ s2b " => " ++ dim (sprint (a_data a))) (Dump t).
Proof.
  intros V U G L H K. pose proof (vreach_reached t V) as R. destruct (get_node t _ a R G) as (n & Hn & ->).
  cbn [a_has a_data a_leaf] in *. destruct (leaf_names t _ n V Hn L) as [K1 K2].
  assert (X : key n = s). { apply valid_utf8_eq in K2. apply valid_utf8_eq in U. congruence. }
  assert (NE : runes s <> []). { intros Y. apply valid_utf8_eq in U. rewrite Y in U. now rewrite <- U in K. }
  pose proof (dump_node t (runes s) n R Hn NE H) as Q. rewrite L, X in Q. exact Q.
Qed.
(** no line of a store of ASCII keys, and no line of a leaf of a store of valid keys, reports a wrong path *)
Theorem dump_right t l n : chain (root t) l n ->
  (exists rf hist outs, t_run rf hist newTrie = Ok (t, outs) /\ (ascii_hist hist \/ valid_hist hist /\ isLeaf n = true)) ->
  wrong_mark q n = [].
Proof.
  intros C (rf & hist & outs & E & H). assert (K : key n = pieces l).
  { destruct H as [H|[H L]]; [now apply (key_ascii rf hist t outs)|now apply (key_leaf rf hist t outs)]. }
  unfold wrong_mark. change (npathS n) with (key n). rewrite K. destruct (chain_last _ _ _ C) as [l' ->].
  unfold pieces. rewrite map_app, concat_app. cbn [map concat]. rewrite app_nil_r. unfold keyPiece. now rewrite suffix_app.
Qed.
Lemma str_repeat_concat s n : str_repeat s n = concat (repeat s n).
Proof. induction n as [|n IH]; cbn [str_repeat repeat concat]; congruence. Qed.
Theorem dump_lines_spec t : reached t -> exists es,
  Dump t = flat_map (fun e => concat (repeat (s2b "  ") (fst e)) ++ dump_line false (fst e) (snd e)) es /\
  root t :: map snd es = walk (root t) /\
  (forall d n, In (d, n) es <-> exists l, chain (root t) l n /\ length l = S d /\ 0 < d).
Proof.
  intros R. destruct (dump_lines t R) as (es & E & H). exists es. split; [|exact H]. rewrite E. apply flat_map_ext.
  intros e. now rewrite str_repeat_concat.
Qed.
Lemma blanks n : str_repeat [32%N] n = repeat 32%N n.
Proof. induction n as [|n IH]; cbn [str_repeat repeat app]; congruence. Qed.
Theorem dump_column d n : exists rest,
  dump_line false d n = of_runes (npath n) ++ repeat 32%N (Nat.max 1 (32 - (2 * d + length (npath n)))) ++
    dim (s2b (if isBranch n then "<B>" else "<L>")) ++ rest ++ [10%N].
Proof.
  unfold Text.dump_line. eexists. f_equal. rewrite (Nat.mul_comm d 2). set (u := 2 * d + length (npath n)). clearbody u.
  assert (B : (if u <? 32 then str_repeat [32%N] (32 - u) else [32%N]) = repeat 32%N (Nat.max 1 (32 - u))).
  { destruct (Nat.ltb_spec u 32) as [L|L].
    - rewrite blanks. f_equal. lia.
    - replace (32 - u) with 0 by lia. reflexivity. }
  cbv zeta. refine (f_equal2 (@app N) B _). refine (f_equal2 (@app N) _ _); [now destruct (isBranch n)|].
  rewrite !app_assoc. reflexivity.
Qed.
End Dump.
