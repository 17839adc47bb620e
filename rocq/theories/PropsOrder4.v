(** The properties of the order of Walk after Merge and Load (C237, C238): only statements.

    [order t]: the full key of every node of the tree, in the order of Walk.  [puts str s (p, m)]: the tree keys of the
    scalars of [m] below [p] with their values, in the order in which [m] and the maps in it are iterated.  [put_key w l]: the
    list [l] after the key [w] is written (C236). *)
From Coq Require Import String.
From Coq Require Import List NArith ZArith Bool Arith Lia Permutation.
From Verif Require Import GoStr Utf8 Node NodeWf Trie Spec Refine ApiRefine Reach Derived Derived2 Cvter Nested Store StoreProofs MergeProofs LoadProofs Follow Samples Layers Merges PropsMerges Order Order3 Order4 Text.
Import ListNotations.
Open Scope nat_scope.
Open Scope list_scope.

(** C237: the order after Merge and after the loops of Load over maps *)
Theorem C237_merge str s t p m : reached t ->
  exists t', st_Merge str s t p m = Ok (t', []) /\ order t' = fold_left (fun l w => put_key w l) (map fst (puts str s (p, m))) (order t).
Proof. exact (@merge_order str s t p m). Qed.
Print Assumptions C237_merge.
Theorem C237_merges str s l t t' : reached t -> merges str s l t = Ok t' ->
  order t' = fold_left (fun l w => put_key w l) (map fst (flat_map (puts str s) l)) (order t).
Proof. exact (@merges_order str s l t t'). Qed.
Print Assumptions C237_merges.
Theorem C237_load str s c os m p t t' e : reached t -> loadMap str s c os m p t = Ok (t', e) ->
  order t' = fold_left (fun l w => put_key w l) (map fst (puts str s (p, m))) (order t).
Proof. exact (@loadMap_order str s c os m p t t' e). Qed.
Print Assumptions C237_load.
Theorem C237_dedicated str s c m p t t' e : reached t -> loadMapDedicated str s c m p t = Ok (t', e) ->
  order t' = fold_left (fun l w => put_key w l) (flat_map (fun x => map fst (puts str s (p, [(fst x, p_value (snd x))]))) m) (order t).
Proof. exact (@loadMapDedicated_order str s c m p t t' e). Qed.
Print Assumptions C237_dedicated.
Example C237_case : exists t, merges m_str m_s [m_base; m_else] newTrie = Ok t /\
  order t = [[]; mb "app."; mb "app.port"; mb "app.log.level"; mb "db.port"].
Proof. eexists. split; run. Qed.

(** C238: the iteration order of a map of Go is not fixed: the same map gives trees with the same data that are walked and
    dumped in different orders *)
Definition m_one : gmap := [(mb "port", GInt 80); (mb "host", GStr (mb "h"))].
Definition m_two : gmap := [(mb "host", GStr (mb "h")); (mb "port", GInt 80)].
Theorem C238_refuted : exists str s p m m' t t', Permutation m m' /\
  st_Merge str s newTrie p m = Ok (t, []) /\ st_Merge str s newTrie p m' = Ok (t', []) /\
  alike t t' /\ order t <> order t' /\ forall dim lightgreen green sprint q, Dump dim lightgreen green sprint q t <> Dump dim lightgreen green sprint q t'.
Proof.
  destruct (merge_data m_str m_s newTrie ([], m_one) reached_new) as (t & E & _ & D & M).
  destruct (merge_data m_str m_s newTrie ([], m_two) reached_new) as (t' & E' & _ & D' & M'). cbn [fst snd] in E, E'.
  exists m_str, m_s, [], m_one, m_two, t, t'. split; [apply perm_swap|]. split; [exact E|]. split; [exact E'|]. split.
  - intros k. rewrite D, D', M, M'. split.
    + change (puts m_str m_s ([], m_one)) with [(mb "port", GInt 80); (mb "host", GStr (mb "h"))].
      change (puts m_str m_s ([], m_two)) with [(mb "host", GStr (mb "h")); (mb "port", GInt 80)].
      cbn [assoc_last fst snd]. destruct (str_eqb (mb "port") k) eqn:P, (str_eqb (mb "host") k) eqn:H; auto.
      apply str_eqb_eq in P, H. subst k. discriminate.
    + change (puts m_str m_s ([], m_one)) with [(mb "port", GInt 80); (mb "host", GStr (mb "h"))].
      change (puts m_str m_s ([], m_two)) with [(mb "host", GStr (mb "h")); (mb "port", GInt 80)].
      cbn [existsb fst]. now destruct (str_eqb (mb "port") k), (str_eqb (mb "host") k).
  - vm_compute in E, E'. injection E as <-. injection E' as <-. split; [intros Q|intros dim lightgreen green sprint q Q]; vm_compute in Q; discriminate Q.
Qed.
Print Assumptions C238_refuted.
