(** How many nodes a history leaves: at most two for each key ever written, whatever is written again or removed. *)
From Coq Require Import List NArith Bool Arith Lia.
From Verif Require Import GoStr Utf8 Node NodeWf InsertProofs MatchProofs Trie TreeOps Spec Refine Climb ApiRefine Reach Effect
  Derived2 HeapWalk.
Import ListNotations.
Open Scope nat_scope.

(** the keys a history writes, in order, with repetitions *)
Definition written (hist : list (hdl * op)) : list skey :=
  flat_map (fun ho => match stored (fst ho) (snd ho) with Some p => [runes p] | None => [] end) hist.

(** ** the common prefixes of a list of keys are few *)
Lemma lcp_turn s : forall b k, length (lcp s b) < length (lcp s k) -> lcp k b = lcp s b.
Proof.
  induction s as [|x s IH]; intros [|y b] [|z k]; cbn; try lia; auto.
  - destruct (N.eqb_spec x z) as [->|]; cbn; [|lia]. destruct (N.eqb_spec z y) as [->|]; cbn; auto.
    intros L. rewrite IH; auto. lia.
Qed.
Lemma lcp_same s : forall b k, length (lcp s b) = length (lcp s k) -> lcp s b = lcp s k.
Proof.
  induction s as [|x s IH]; intros [|y b] [|z k]; cbn; auto; try (destruct (x =? _)%N; cbn; easy).
  destruct (x =? y)%N, (x =? z)%N; cbn; try easy. intros L. f_equal. apply IH. lia.
Qed.
(** the longest common prefix of [s] with a key of the list *)
Fixpoint longest (s : skey) (K : list skey) : skey :=
  match K with
  | [] => []
  | k :: K => if length (longest s K) <? length (lcp s k) then lcp s k else longest s K
  end.
Lemma longest_in s K : K <> [] -> longest s K = [] \/ exists k, In k K /\ longest s K = lcp s k.
Proof.
  induction K as [|k K IH]; [easy|]. intros _. cbn [longest]. destruct (length (longest s K) <? length (lcp s k)).
  - right. exists k. split; [now left|reflexivity].
  - destruct K as [|k1 K]; [now left|]. destruct IH as [E|(k2 & H & E)]; [easy|now left|]. right. exists k2.
    split; [now right|exact E].
Qed.
Lemma longest_max s K k : In k K -> length (lcp s k) <= length (longest s K).
Proof.
  induction K as [|k1 K IH]; [easy|]. cbn [longest In]. intros [->|H].
  - destruct (Nat.ltb_spec (length (longest s K)) (length (lcp s k))); lia.
  - specialize (IH H). destruct (Nat.ltb_spec (length (longest s K)) (length (lcp s k1))); lia.
Qed.
Fixpoint clos (K : list skey) : list skey :=
  match K with
  | [] => []
  | s :: K => s :: match K with [] => [] | _ => [longest s K] end ++ clos K
  end.
Lemma clos_length K : length (clos K) = 2 * length K - 1.
Proof.
  induction K as [|s K IH]; [reflexivity|]. cbn [clos length]. rewrite app_length, IH. destruct K; cbn; lia.
Qed.
Lemma clos_cons s k K : clos (s :: k :: K) = s :: longest s (k :: K) :: clos (k :: K).
Proof. reflexivity. Qed.
Lemma clos_lcp K : forall a b, In a K -> In b K -> In (lcp a b) (clos K).
Proof.
  induction K as [|s K IH]; [easy|].
  assert (G : forall b, In b K -> In (lcp s b) (clos (s :: K))).
  { intros b Hb. pose proof (longest_max s K b Hb) as M. destruct K as [|k0 K]; [easy|]. rewrite clos_cons.
    destruct (longest_in s (k0 :: K)) as [E|(k & Hk & E)]; [easy| |].
    - rewrite E in M. cbn in M. destruct (lcp s b) eqn:X; [|cbn in M; lia]. right. left. exact E.
    - rewrite E in M. apply Nat.le_lteq in M. destruct M as [M|M].
      + right. right. rewrite <- (lcp_turn s b k M). now apply IH.
      + right. left. transitivity (lcp s k); [exact E|]. symmetry. now apply lcp_same. }
  intros a b [->|Ha] [->|Hb].
  - rewrite lcp_refl. now left.
  - now apply G.
  - rewrite lcp_comm. now apply G.
  - right. apply in_app_iff. right. now apply IH.
Qed.

(** ** every node stands at the empty key or where two written keys part *)
Definition from (K : list skey) (l : list (key_t * info)) : Prop :=
  forall k i, In (k, i) l -> k = [] \/ exists a b, In a K /\ In b K /\ k = lcp a b.
Lemma from_mono K K' l : incl K K' -> from K l -> from K' l.
Proof. intros I H k i X. destruct (H k i X) as [->|(a & b & A & B & ->)]; [now left|]. right. exists a, b. auto. Qed.
Lemma from_eff K p l l' : eff p l l' -> match p with Some p => In (runes p) K | None => True end -> from K l -> from K l'.
Proof.
  intros E O F.
  assert (U : forall id fi l0, from K l0 -> from K (map (upd_ent id fi) l0)).
  { intros id fi l0 H k i X. apply in_map_iff in X. destruct X as ([k' i'] & X & Y). unfold upd_ent in X. cbn in X.
    destruct (i_id i' =? id); injection X as <- <-; eauto. }
  assert (Wk : forall w, In w K -> w = [] \/ exists a b, In a K /\ In b K /\ w = lcp a b).
  { intros w H. right. exists w, w. now rewrite lcp_refl. }
  destruct E as [l|p v nx nx' id old fi l l' R _|id fi l _|k0 l _]; auto.
  - apply U. destruct R as [l1 i0 l2|l1 l2 Hp|l1 k0 i0 l2 Hp|l1 k0 k1 i0 l2 l3 P1 P2 P3 Hp]; intros k i H.
    + apply in_app_or in H. destruct H as [H|[H|H]].
      * apply (F k i), in_or_app. now left.
      * injection H as <- <-. now apply Wk.
      * apply (F k i), in_or_app. right. now right.
    + apply in_app_or in H. destruct H as [H|[H|H]].
      * apply (F k i), in_or_app. now left.
      * injection H as <- <-. now apply Wk.
      * apply (F k i), in_or_app. now right.
    + apply in_app_or in H. destruct H as [H|[H|[H|H]]].
      * apply (F k i), in_or_app. now left.
      * injection H as <- <-. now apply Wk.
      * injection H as <- <-. apply (F k0 i0), in_or_app. right. now left.
      * apply (F k i), in_or_app. right. now right.
    + apply in_app_or in H. destruct H as [H|[H|[H|H]]].
      * apply (F k i), in_or_app. now left.
      * injection H as <- <-. subst k0. destruct (F k1 i0) as [->|(a & b & A & B & ->)].
        { apply in_or_app. right. now left. }
        -- left. now destruct (runes p).
        -- right. destruct (lcp3 (runes p) a b) as [->| ->]; eauto.
      * injection H as <- <-. apply (F k1 i0), in_or_app. right. now left.
      * apply in_app_or in H. destruct H as [H|[H|H]].
        -- apply (F k i), in_or_app. right. right. apply in_or_app. now left.
        -- injection H as <- <-. now apply Wk.
        -- apply (F k i), in_or_app. right. right. apply in_or_app. now right.
  - intros k i H. apply filter_In in H. now apply (F k i).
Qed.
Lemma from_run K rf hist t outs : t_run rf hist newTrie = Ok (t, outs) -> incl (written hist) K -> from K (ients [] (root t)).
Proof.
  intros E I. apply (run_inv (from K) (fun p => In (runes p) K) rf) with (hist := hist) (t := newTrie) (outs := outs); auto.
  - intros p l l' X Y Z. now apply (from_eff K p l l').
  - exact newTrie_wf.
  - intros k i [H|[]]. injection H as <- <-. now left.
  - apply Forall_forall. intros [h o] H. cbn [fst snd]. destruct (stored h o) as [p|] eqn:S; auto. apply I.
    unfold written. apply in_flat_map. exists (h, o). split; auto. cbn [fst snd]. rewrite S. now left.
Qed.

Theorem nodes_bound rf hist t outs K : t_run rf hist newTrie = Ok (t, outs) -> incl (written hist) K ->
  length (walk (root t)) <= S (2 * length K - 1).
Proof.
  intros E I. pose proof (from_run K rf hist t outs E I) as F.
  pose proof (run_wf rf hist newTrie t outs newTrie_wf E) as WT.
  rewrite <- clos_length. rewrite (walk_ents []), map_length, <- (map_length fst).
  change (S (length (clos K))) with (length (([] : skey) :: clos K)).
  apply NoDup_incl_length; [apply ents_nodup, (proj1 WT)|].
  intros k H. apply in_map_iff in H. destruct H as ([k' n] & <- & H). cbn [fst].
  destruct (F k' (info_of n)) as [->|(a & b & A & B & ->)].
  - unfold ients. apply in_map_iff. exists (k', n). auto.
  - now left.
  - right. now apply clos_lcp.
Qed.

(** the tree is no deeper than the longest key is long *)
Lemma depth_keys L n : forall pre, wfn n -> (forall k m, In (k, m) (ents pre n) -> length k <= L) ->
  depth n + length (pre ++ npath n) <= S L.
Proof.
  induction n as [n IH] using node_ind'. intros pre W H.
  assert (H0 : length (pre ++ npath n) <= L) by (apply (H _ n); rewrite ents_eq; now left).
  assert (X : forall k, In k (nkids n) -> depth k + length (pre ++ npath n) <= L).
  { intros k Hk. rewrite Forall_forall in IH. destruct (wfn_kids _ _ W Hk) as [Ne Wk].
    specialize (IH k Hk (pre ++ npath n) Wk). rewrite app_length in IH.
    assert (0 < length (npath k)) by (destruct (npath k); [congruence|cbn; lia]).
    enough (depth k + (length (pre ++ npath n) + length (npath k)) <= S L) by lia. apply IH.
    intros k' m Hm. apply (H k' m). rewrite ents_eq. right. apply in_flat_map. eauto. }
  clear H IH W. destruct n as [a p b ks e f g h i]. cbn [nkids npath depth] in *.
  enough (Y : (fix go (l : list node) : nat := match l with [] => 0 | k :: t => Nat.max (depth k) (go t) end) ks + length (pre ++ p) <= L) by lia.
  induction ks as [|k ks IHk]; [exact H0|]. pose proof (X k (or_introl eq_refl)). specialize (IHk (fun c Hc => X c (or_intror Hc))). lia.
Qed.
Theorem depth_bound rf hist t outs L : t_run rf hist newTrie = Ok (t, outs) -> Forall (fun w => length w <= L) (written hist) ->
  depth (root t) <= S L.
Proof.
  intros E I. pose proof (from_run _ rf hist t outs E (incl_refl _)) as F. rewrite Forall_forall in I.
  pose proof (run_wf rf hist newTrie t outs newTrie_wf E) as WT.
  enough (depth (root t) + length ([] ++ npath (root t)) <= S L) by lia.
  apply depth_keys; [apply (proj1 WT)|].
  intros k n H. destruct (F k (info_of n)) as [->|(a & b & A & B & ->)].
  - unfold ients. apply in_map_iff. exists (k, n). auto.
  - cbn. lia.
  - specialize (I a A). pose proof (prefix_len _ _ (lcp_prefix_l a b)). lia.
Qed.
