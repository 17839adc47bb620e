(** How many runes the fragments of all nodes have together. *)
From Coq Require Import List NArith Bool Arith Lia.
From Verif Require Import GoStr Utf8 Node NodeWf InsertProofs MatchProofs Trie TreeOps Spec Refine ApiRefine Reach Effect Derived HeapOwn Size.
Import ListNotations.
Open Scope nat_scope.

Definition total {A} (f : A -> nat) (l : list A) : nat := fold_right (fun x s => f x + s) 0 l.
Lemma total_app {A} (f : A -> nat) l l' : total f (l ++ l') = total f l + total f l'.
Proof. induction l as [|x l IH]; cbn; [reflexivity|]. unfold total in *. rewrite IH. lia. Qed.

(** the prefixes of [pre ++ l] that are longer than [pre] *)
Fixpoint own (pre l : list rune) : list (list rune) := match l with [] => [] | r :: l => (pre ++ [r]) :: own (pre ++ [r]) l end.
Lemma own_length l : forall pre, length (own pre l) = length l.
Proof. induction l as [|r l IH]; intros pre; cbn; [reflexivity|]. now rewrite IH. Qed.
Lemma own_in l : forall pre k, In k (own pre l) <-> exists r y z, l = r :: y ++ z /\ k = pre ++ r :: y.
Proof.
  induction l as [|r l IH]; intros pre k; cbn [own In]; [split; [tauto|intros (r & y & z & E & _); discriminate]|]. rewrite IH. split.
  - intros [<-|(r' & y & z & -> & ->)]; [exists r, [], l; auto|]. exists r, (r' :: y), z. rewrite <- app_assoc. auto.
  - intros (r' & y & z & E & ->). injection E as <- ->. destruct y as [|r' y]; [now left|]. right. exists r', y, z. rewrite <- app_assoc. auto.
Qed.
Lemma own_nodup l : forall pre, NoDup (own pre l).
Proof.
  induction l as [|r l IH]; intros pre; cbn [own]; constructor; auto. rewrite own_in. intros (r' & y & z & _ & E).
  apply (f_equal (@length _)) in E. rewrite !app_length in E. cbn in E. lia.
Qed.
(** every rune of every fragment as the way that leads to it *)
Fixpoint ways (pre : list rune) (n : node) : list (list rune) :=
  own pre (npath n) ++ (fix go ks := match ks with [] => [] | c :: ks => ways (pre ++ npath n) c ++ go ks end) (nkids n).
Lemma ways_eq pre n : ways pre n = own pre (npath n) ++ flat_map (ways (pre ++ npath n)) (nkids n).
Proof.
  destruct n as [a p c ks e f g h i]. cbn [ways npath nkids]. reflexivity.
Qed.
Lemma walk_eq n : walk n = n :: flat_map walk (nkids n).
Proof. now destruct n. Qed.
Lemma ways_length n : forall pre, length (ways pre n) = total (fun m => length (npath m)) (walk n).
Proof.
  induction n as [n IH] using node_ind'. intros pre. rewrite ways_eq, app_length, own_length, (walk_eq n). cbn [total fold_right]. f_equal.
  set (q := pre ++ npath n). clearbody q. induction IH as [|c ks H _ IH]; cbn; [reflexivity|]. rewrite app_length, H, IH.
  symmetry. apply (total_app (fun m => length (npath m))).
Qed.
Lemma ways_in n : forall pre k, In k (ways pre n) -> pprefix pre k /\ exists f m, In (f, m) (ents pre n) /\ prefix k f.
Proof.
  induction n as [n IH] using node_ind'. intros pre k. rewrite ways_eq, ents_eq, in_app_iff. intros [H|H].
  - apply own_in in H. destruct H as (r & y & z & E & ->). split; [now exists r, y|]. exists (pre ++ npath n), n. split; [now left|].
    rewrite E. exists z. now rewrite <- app_assoc.
  - apply in_flat_map in H. destruct H as (c & Hc & H). rewrite Forall_forall in IH. destruct (IH c Hc _ _ H) as [(r & y & ->) (f & m & A & B)].
    split.
    + rewrite <- app_assoc. destruct (npath n) as [|x l]; [now exists r, y|]. exists x, (l ++ r :: y). reflexivity.
    + exists f, m. split; [|exact B]. right. apply in_flat_map. eauto.
Qed.
Lemma ways_head pre n k : npath n <> [] -> In k (ways pre n) -> exists r y, fst_rune n = Some r /\ k = pre ++ r :: y.
Proof.
  intros Ne. rewrite ways_eq, in_app_iff. intros [H|H].
  - apply own_in in H. destruct H as (r & y & z & E & ->). exists r, y. unfold fst_rune. now rewrite E.
  - apply in_flat_map in H. destruct H as (c & Hc & H). destruct (ways_in _ _ _ H) as [(r & y & ->) _].
    unfold fst_rune. destruct (npath n) as [|x l]; [easy|]. exists x, (l ++ r :: y). split; [reflexivity|]. now rewrite <- app_assoc.
Qed.

Lemma ways_nodup n : forall pre, wfn n -> NoDup (ways pre n).
Proof.
  induction n as [n IH] using node_ind'. intros pre W. rewrite ways_eq. inversion W as [n' ND F]; subst. apply NoDup_app_intro.
  - apply own_nodup.
  - set (q := pre ++ npath n). clearbody q. clear W. induction (nkids n) as [|c ks IHks]; cbn [flat_map]; [constructor|].
    inversion IH; inversion ND; inversion F; subst. apply NoDup_app_intro; [apply H1; tauto|auto|].
    intros k A B. apply in_flat_map in B. destruct B as (c' & Hc & B). rewrite Forall_forall in H10. destruct (H10 c' Hc) as [Ne' _].
    destruct (ways_head _ _ _ (proj1 H9) A) as (r & y & E & ->). destruct (ways_head _ _ _ Ne' B) as (r' & y' & E' & X).
    apply app_inj_head in X. destruct X as [<- _]. apply H5. rewrite E, <- E'. now apply in_map.
  - intros k A B. apply own_in in A. destruct A as (r & y & z & E & ->). apply in_flat_map in B. destruct B as (c & _ & B).
    destruct (ways_in _ _ _ B) as [X _]. apply pprefix_len in X. rewrite E, !app_length in X. cbn in X. rewrite app_length in X. lia.
Qed.

(** one rune for every prefix of a key that was written, at most *)
Theorem text_prefixes rf hist t outs P : t_run rf hist newTrie = Ok (t, outs) ->
  (forall w k, In w (written hist) -> prefix k w -> k <> [] -> In k P) ->
  total (fun m => length (npath m)) (walk (root t)) <= length P.
Proof.
  intros E H. pose proof (from_run _ rf hist t outs E (incl_refl _)) as F. pose proof (run_wf rf hist newTrie t outs newTrie_wf E) as WT.
  rewrite <- (ways_length (root t) []). apply NoDup_incl_length; [apply ways_nodup, (proj1 WT)|].
  intros k Hk. destruct (ways_in _ _ _ Hk) as [(r & y & Ek) (f & m & A & B)].
  destruct (F f (info_of m)) as [->|(a & b & Ha & Hb & ->)].
  - unfold ients. apply in_map_iff. exists (f, m). auto.
  - destruct B as [z B]. subst k. discriminate.
  - apply (H a); auto; [|now subst k]. eapply prefix_trans; [exact B|apply lcp_prefix_l].
Qed.
Theorem text_bound rf hist t outs K : t_run rf hist newTrie = Ok (t, outs) -> incl (written hist) K ->
  total (fun m => length (npath m)) (walk (root t)) <= total (@length rune) K.
Proof.
  intros E I. etransitivity; [apply (text_prefixes rf hist t outs (flat_map (own []) K) E)|].
  - intros w k Hw [z ->] Ne. apply in_flat_map. exists (k ++ z). split; [now apply I|]. apply own_in. destruct k as [|r y]; [easy|]. now exists r, y, z.
  - clear. induction K as [|w K IH]; cbn; [lia|]. rewrite app_length, own_length. apply Nat.add_le_mono_l. exact IH.
Qed.
