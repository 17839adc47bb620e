(** The order of Walk after Merge and the loops of Load. *)
From Coq Require Import List NArith ZArith Bool Arith Lia Permutation.
From Verif Require Import GoStr Utf8 Node NodeWf Trie Spec Refine ApiRefine Reach Derived Derived2 Cvter Nested Store StoreProofs MergeProofs LoadProofs Follow Layers Merges Order Order3.
Import ListNotations.
Open Scope nat_scope.

Notation puts_in := (fold_left (fun l w => put_key w l)).
Lemma wrun_order l : forall t t' e, reached t -> wrun l t = Ok (t', e) -> reached t' /\ order t' = puts_in (map wr_key l) (order t).
Proof.
  induction l as [|w l IH]; intros t t' e R E; cbn [wrun map fold_left] in *.
  - injection E as <- _. auto.
  - destruct (setKV_step 0 (wr_s w) t (wr_p w) (wr_v w) (wr_c w) (wr_o w) R) as (t1 & id & E1 & S1 & _).
    rewrite E1 in E. cbn [bind] in E. destruct (wrun l t1) as [[t2 e2]| |] eqn:E2; try discriminate. cbn [bind] in E. injection E as <- _.
    destruct (IH t1 t2 e2 (reached_step _ _ _ _ _ _ R S1) E2) as [R2 ->]. split; [exact R2|]. f_equal.
    rewrite (step_put _ _ _ _ _ _ R S1) by (intros path; unfold wop; now destruct (so_loading (wr_s w))). now rewrite wop_stored.
Qed.
Lemma map_keys l : map wr_key l = map fst (map (fun w => (wr_key w, wr_v w)) l).
Proof. now rewrite map_map. Qed.
Theorem loadMap_order str s c os m p t t' e : reached t -> loadMap str s c os m p t = Ok (t', e) ->
  order t' = puts_in (map fst (puts str s (p, m))) (order t).
Proof.
  intros R E. rewrite loadMap_wrun in E. destruct (wrun_order _ _ _ _ R E) as [_ ->]. rewrite map_keys, loadMap_keys. reflexivity.
Qed.
Theorem loadMapDedicated_order str s c m p t t' e : reached t -> loadMapDedicated str s c m p t = Ok (t', e) ->
  order t' = puts_in (flat_map (fun x => map fst (puts str s (p, [(fst x, p_value (snd x))]))) m) (order t).
Proof.
  intros R E. rewrite loadMapDedicated_wrun in E. destruct (wrun_order _ _ _ _ R E) as [_ ->]. f_equal. clear.
  induction m as [|[k v] m IH]; cbn [flat_map]; auto. rewrite map_app, IH. f_equal. rewrite map_keys. cbn [fst snd]. rewrite gl_placed.
  unfold puts, leaves. cbn [fst snd flat_map]. now rewrite app_nil_r.
Qed.
Theorem merge_order str s t p m : reached t ->
  exists t', st_Merge str s t p m = Ok (t', []) /\ order t' = puts_in (map fst (puts str s (p, m))) (order t).
Proof.
  intros R. destruct (merge_data str s t (p, m) R) as (t' & E & _). cbn [fst snd] in E. exists t'. split; [exact E|].
  exact (loadMap_order str s false [] m p t t' [] R E).
Qed.
Theorem merges_order str s l : forall t t', reached t -> merges str s l t = Ok t' ->
  order t' = puts_in (map fst (flat_map (puts str s) l)) (order t).
Proof.
  induction l as [|[p m] l IH]; intros t t' R E; cbn [merges flat_map] in *.
  - now injection E as <-.
  - destruct (merge_data str s t (p, m) R) as (t1 & E1 & R1 & _). rewrite E1 in E. rewrite (IH t1 t' R1 E).
    cbn [fst snd] in E1. rewrite (loadMap_order str s false [] m p t t1 [] R E1). now rewrite map_app, fold_left_app.
Qed.
