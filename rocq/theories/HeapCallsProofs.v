(** Goroutines that use the store in sections of their own: what they are given and what they leave. *)
From Coq Require Import List NArith Bool Arith Lia Permutation.
From Verif Require Import GoStr Utf8 Node NodeWf InsertProofs MatchProofs Trie TreeOps Spec Refine ApiRefine Reach Effect
  Store Heap HeapProofs HeapWalk HeapRace HeapGet HeapRemove HeapOwn NoId HeapFair HeapSect HeapStore HeapLin HeapWork WorkSpec HeapWorkProofs HeapCalls.
Import ListNotations.
Open Scope nat_scope.

(** ** programs in pieces *)
Section Split.
Variables (sh : mine) (pth : nat -> option (list rune)).
Notation owned := (owns sh asis pth any).
Lemma owns_split {A B} (Q : mine -> B -> Prop) (q : A -> prog B) p : forall L, owned Q L (seqp p q) -> owned (fun L' x => owned Q L' (q x)) L p.
Proof.
  induction p as [x| | |a k IH|a f k IH|n k IH|r i k IH|r i x k IH|r k IH|l k IH]; intros L H; cbn [seqp] in H.
  - now constructor.
  - inversion H.
  - inversion H.
  - inversion H as [|L0 b s k0 E O E0 E1|L0 b w k0 E O E0 E1| | | |L0 b s k0 E O E0 E1| | | | | |]; subst.
    + apply ow_node with s; auto.
    + apply ow_path with w; auto.
    + apply ow_mynode with s; auto.
  - inversion H as [| | | | |L0 b s f0 k0 E V O E0 E1| | | |L0 b s f0 k0 E PT W O E0 E1| | |]; subst.
    + apply ow_set with s; auto.
    + apply ow_myset with s; auto.
  - inversion H as [| | | | | | | | | | |L0 n0 k0 W O E0 E1|]; subst. apply ow_new; auto.
  - inversion H as [| | |L0 r0 i0 l c k0 E E' O E0 E1| | | |L0 r0 i0 l c k0 E E' O E0 E1| | | | |]; subst.
    + apply ow_elem with l c; auto.
    + apply ow_myelem with l c; auto.
  - inversion H as [| | | | | | | | | |L0 r0 l i0 x0 k0 E LT W O E0 E1| |]; subst. apply ow_myput with l; auto.
  - inversion H as [| | | |L0 r0 l k0 E O E0 E1| | | |L0 r0 l k0 E O E0 E1| | | |]; subst.
    + apply ow_cap with l; auto.
    + apply ow_mycap with l; auto.
  - inversion H as [| | | | | | | | | | | |L0 l0 k0 W O E0 E1]; subst. apply ow_newa; auto.
Qed.
Lemma owns_ret {A} (Q : mine -> A -> Prop) L x : owned Q L (Ret x) -> Q L x.
Proof. intros H. now inversion H. Qed.
Lemma owns_map {A B} (Q : mine -> B -> Prop) (f : A -> B) p L : owned Q L (seqp p (fun x => Ret (f x))) -> owned (fun L' x => Q L' (f x)) L p.
Proof. intros H. apply owns_split in H. eapply owns_mono; [exact H|]. cbn beta. intros L' x. apply owns_ret. Qed.
Lemma work_app grow rf dep rt a b : forall (Q : mine -> list reply -> Prop) L, owned Q L (p_work grow rf dep rt (a ++ b)) ->
  owned (fun L1 xa => owned (fun L2 xb => Q L2 (xa ++ xb)) L1 (p_work grow rf dep rt b)) L (p_work grow rf dep rt a).
Proof.
  induction a as [|it a IH]; intros Q L H; cbn [app p_work] in *.
  - constructor. exact H.
  - apply owns_split in H. eapply owns_bind; [exact H|]. cbn beta. intros L1 x H1. apply owns_map in H1.
    eapply owns_bind; [exact (IH _ _ H1)|]. cbn beta. intros L2 xa H2. constructor. exact H2.
Qed.
End Split.

(** ** a call of the store is made of calls of the trie *)
Definition parts (c : scall) : list item :=
  match c with
  | It it => [it]
  | StSet s p v => [Op (DoGet (so_h s) p); Mk (so_h s) p v (negb (so_loading s))]
  | StRm s p => [Rg (so_h s) p]
  end.
Definition new_key (s : store) (found : bool) (old : gval) : bool :=
  if negb (so_loading s) then if gval_is_nil old then negb found else false else negb found.
Definition tell (c : scall) (xs : list reply) : sreply :=
  match c, xs with
  | It _, [x] => Rep x
  | StSet s p v, [Value q; Old old] => Told old (tryOnSet s p (negb (so_loading s)) old v (new_key s (q_found q) old))
  | StRm s p, [Is v b] => Gone b (if b then tryOnDelete s p (negb (so_loading s)) v else [])
  | _, _ => Rep Stored
  end.
Inductive tells : list scall -> list reply -> list sreply -> Prop :=
| te_nil : tells [] [] []
| te_cons c cs xs xs' ys : length xs = length (parts c) -> tells cs xs' ys -> tells (c :: cs) (xs ++ xs') (tell c xs :: ys).
Lemma split_eq {A} (a b c d : list A) : length a = length c -> a ++ b = c ++ d -> a = c /\ b = d.
Proof.
  revert c. induction a as [|x a IH]; intros [|y c] L E; cbn in *; try discriminate; auto.
  injection E as -> E. injection L as L. destruct (IH c L E) as [-> ->]. auto.
Qed.
Lemma tells_fun cs : forall xs ys ys', tells cs xs ys -> tells cs xs ys' -> ys = ys'.
Proof.
  induction cs as [|c cs IH]; intros xs ys ys' H H'.
  - inversion H; subst. now inversion H'.
  - inversion H as [|? ? a b zs L T E]; subst. inversion H' as [|? ? a' b' zs' L' T' E]; subst.
    destruct (split_eq a' b' a b) as [-> ->]; [congruence|auto|]. f_equal. eapply IH; eauto.
Qed.
Lemma tells_app a b x x' y y' : tells a x y -> tells b x' y' -> tells (a ++ b) (x ++ x') (y ++ y').
Proof. intros H H'. induction H as [|c cs xs xs0 ys L T IH]; [exact H'|]. cbn [app]. rewrite <- app_assoc. constructor; auto. Qed.

(** the programs *)
Lemma call_like sh pth grow rf dep rt c (Q : mine -> list reply -> Prop) L : owns sh asis pth any Q L (p_work grow rf dep rt (parts c)) ->
  owns sh asis pth any (fun L' y => exists xs, Q L' xs /\ length xs = length (parts c) /\ y = tell c xs) L (p_call grow rf dep rt c).
Proof.
  intros H. destruct c as [it|s p v|s p]; cbn [parts p_work p_call] in *.
  - apply owns_split in H. eapply owns_bind; [exact H|]. cbn beta. intros L1 x H1. cbn [seqp] in H1. apply owns_ret in H1. constructor. exists [x]. auto.
  - cbn [code_i code] in H. apply owns_split in H. apply owns_map in H. cbn beta in H.
    unfold p_storeSet. eapply owns_bind with (Q := fun L' y => exists q, Q L' [Value q; Old (fst y)] /\
      snd y = tryOnSet s p (negb (so_loading s)) (fst y) v (new_key s (q_found q) (fst y))).
    2: { cbn beta. intros L' y (q & H1 & H2). constructor. exists [Value q; Old (fst y)]. split; [exact H1|]. split; [reflexivity|]. cbn. now rewrite H2. }
    eapply owns_bind; [exact H|]. cbn beta. clear H. intros L1 q H. apply owns_map in H. apply owns_split in H. apply owns_split in H.
    unfold p_setKV. eapply owns_bind; [exact H|]. cbn beta. clear H. intros L2 [[a old] ds] H. cbn [fst snd] in H. apply owns_split in H.
    eapply owns_bind; [exact H|]. cbn beta. clear H. intros L3 u H. cbn [seqp] in H. apply owns_ret in H. cbn [seqp] in H. apply owns_ret in H. constructor. exists q. cbn [fst snd]. split; [exact H|]. unfold new_key. now destruct (negb (so_loading s)).
  - cbn [code_i] in H. apply owns_split in H. apply owns_split in H. unfold p_storeRemove.
    eapply owns_bind with (Q := fun L' y => exists v, Q L' [Is v (fst y)] /\ snd y = if fst y then tryOnDelete s p (negb (so_loading s)) v else []).
    2: { cbn beta. intros L' [b es] (v & H1 & H2). cbn in *. constructor. exists [Is v b]. split; [exact H1|]. split; [reflexivity|]. cbn. now rewrite H2. }
    eapply owns_bind; [exact H|]. cbn beta. clear H. intros L1 r H.
    assert (NO : owns sh asis pth any (fun L' x => owns sh asis pth any Q L' (let* xs := Ret [] in Ret (x :: xs))) L1 (Ret (Is GNil false)) ->
      owns sh asis pth any (fun L' (y : bool * list ev) => exists v, Q L' [Is v (fst y)] /\ snd y = if fst y then tryOnDelete s p (negb (so_loading s)) v else []) L1 (Ret (false, []))).
    { intros X. apply owns_ret in X. cbn [seqp] in X. apply owns_ret in X. constructor. exists GNil. auto. }
    destruct (hs_node r) as [a|]; [|auto]. destruct (hs_partial r); [auto|]. destruct (hs_parent r) as [q|]; [|auto].
    apply owns_split in H. eapply owns_bind; [exact H|]. cbn beta. clear H NO. intros L2 b H. destruct b.
    + apply (owns_split sh pth (fun L' x => owns sh asis pth any Q L' (let* xs := Ret [] in Ret (x :: xs))) (fun n => Ret (Is (hdata n) true)) (GetN a (fun n => Ret n))) in H.
      apply (owns_bind sh asis pth any _ _ L2 (GetN a (fun n => Ret n)) (fun n => Ret (true, tryOnDelete s p (negb (so_loading s)) (hdata n)))) with (1 := H).
      cbn beta. intros L3 n X. apply owns_ret in X. cbn [seqp] in X. apply owns_ret in X. constructor. exists (hdata n). auto.
    + apply owns_ret in H. cbn [seqp] in H. apply owns_ret in H. constructor. exists GNil. auto.
Qed.
Lemma calls_like grow rf dep rt cs : forall xs ys, tells cs xs ys -> like grow rf dep rt (flat_map parts cs) xs (p_calls grow rf dep rt cs) ys.
Proof.
  induction cs as [|c cs IH]; intros xs ys T sh pth Q L H; inversion T as [|? ? x x' zs LE T']; subst; cbn [flat_map p_calls] in *.
  - cbn [p_work] in H. apply owns_ret in H. destruct H as [_ H]. constructor. auto.
  - apply work_app in H. apply call_like in H. eapply owns_bind; [exact H|]. cbn beta. clear H. intros L1 y (x0 & H & LN & ->).
    assert (H1 : owns sh asis pth any (fun L2 xb => xb = x' /\ (x0 = x /\ Q L2)) L1 (p_work grow rf dep rt (flat_map parts cs))).
    { eapply owns_mono; [exact H|]. cbn beta. intros L2 xb [E HQ]. apply split_eq in E; [tauto|congruence]. }
    eapply owns_bind; [exact (IH x' zs T' sh pth _ _ H1)|]. cbn beta. intros L2 y (-> & -> & HQ). constructor. auto.
Qed.

(** the calls on the tree *)
Lemma does_parts rf t c t' y : does_c rf t c t' y <-> exists xs, does_all rf t (parts c) t' xs /\ length xs = length (parts c) /\ y = tell c xs.
Proof.
  split.
  - destruct c as [it|s p v|s p]; cbn [does_c parts].
    + intros (x & D & ->). exists [x]. split; [econstructor; [exact D|constructor]|auto].
    + intros (id & old & es & E & ->). unfold st_Set in E. destruct (Query rf (so_h s) t p) as [q| |] eqn:EQ; cbn [bind] in E; try discriminate.
      unfold setKV in E. destruct (Set_ (so_h s) t p v) as [[[t1 i] o]| |] eqn:ES; cbn [bind] in E; try discriminate. cbv zeta in E.
      exists [Value q; Old old]. injection E as <- <- <- <-. split.
      * econstructor; [split; [reflexivity|]; exists q; split; [exact EQ|reflexivity]|]. econstructor; [|constructor].
        exists t1, i, o. split; [exact ES|]. split; [|reflexivity]. destruct (so_loading s); reflexivity.
      * split; [reflexivity|]. cbn [tell]. unfold new_key. reflexivity.
    + intros (b & es & E & ->). unfold st_Remove in E. destruct (RemoveEx rf (so_h s) t p) as [[[[t1 n] q] b']| |] eqn:ER; cbn [bind] in E; try discriminate.
      injection E as <- <- <-. assert (NB : b' = match n with Some _ => true | None => false end).
      { unfold RemoveEx in ER. destruct (search rf (so_h s) t (full (so_h s) p)) as [r| |]; try discriminate. cbn [bind] in ER.
        destruct (s_node r) as [n0|]; [destruct (s_partial r); [|destruct (s_parent r) as [p0|]; [destruct (fst (remove_id (nid n0) (nkids p0)))|]]|]; inversion ER; reflexivity. }
      exists [match n with Some n => Is (ndata n) true | None => Is GNil false end]. split; [econstructor; [|constructor]; exists n, q, b'; auto|].
      split; [reflexivity|]. rewrite NB. destruct n; reflexivity.
  - intros (xs & D & LN & ->). destruct c as [it|s p v|s p]; cbn [does_c parts] in *.
    + inversion D as [|? ? t1 x ? ? xs' D1 D2]; subst. inversion D2; subst. cbn. eauto.
    + inversion D as [|? ? t1 x ? ? xs' D1 D2]; subst. inversion D2 as [|? ? t2 x2 ? ? xs2 D3 D4]; subst. inversion D4; subst.
      destruct D1 as (-> & q & EQ & ->). destruct D3 as (t2 & id & old & ES & -> & ->). cbn [tell]. unfold st_Set, setKV. rewrite EQ. cbn [bind]. rewrite ES. cbn [bind].
      exists id, old. eexists. split; [|reflexivity]. unfold new_key. destruct (so_loading s); reflexivity.
    + inversion D as [|? ? t1 x ? ? xs' D1 D2]; subst. inversion D2; subst. destruct D1 as (n & q & b & ER & ->). unfold st_Remove. rewrite ER. cbn [bind].
      assert (NB : b = match n with Some _ => true | None => false end).
      { unfold RemoveEx in ER. destruct (search rf (so_h s) t (full (so_h s) p)) as [r| |]; try discriminate. cbn [bind] in ER.
        destruct (s_node r) as [n0|]; [destruct (s_partial r); [|destruct (s_parent r) as [p0|]; [destruct (fst (remove_id (nid n0) (nkids p0)))|]]|]; inversion ER; reflexivity. }
      exists b. eexists. split; [reflexivity|]. rewrite NB. destruct n; reflexivity.
Qed.
Lemma all_split rf a : forall t b t' xs, does_all rf t (a ++ b) t' xs -> exists t1 x x', does_all rf t a t1 x /\ does_all rf t1 b t' x' /\ xs = x ++ x' /\ length x = length a.
Proof.
  induction a as [|it a IH]; intros t b t' xs H; cbn [app] in H.
  - exists t, [], xs. split; [constructor|auto].
  - inversion H as [|? ? t1 x ? ? xs' D1 D2]; subst. destruct (IH _ _ _ _ D2) as (t2 & y & y' & A1 & A2 & -> & A4). exists t2, (x :: y), y'.
    split; [econstructor; eauto|]. split; [exact A2|]. cbn. auto.
Qed.
Lemma does_tells rf cs : forall t t' ys, does_cs rf t cs t' ys -> exists xs, does_all rf t (flat_map parts cs) t' xs /\ tells cs xs ys.
Proof.
  induction cs as [|c cs IH]; intros t t' ys H; inversion H as [|? ? t1 y ? ? ys' D1 D2]; subst.
  - exists []. split; constructor.
  - apply does_parts in D1. destruct D1 as (x & A1 & A2 & ->). destruct (IH _ _ _ D2) as (x' & B1 & B2). exists (x ++ x').
    split; [cbn [flat_map]; eapply does_all_app; eauto|now constructor].
Qed.
Lemma tells_does rf cs : forall t t' xs, does_all rf t (flat_map parts cs) t' xs -> exists ys, does_cs rf t cs t' ys /\ tells cs xs ys.
Proof.
  induction cs as [|c cs IH]; intros t t' xs H; cbn [flat_map] in H.
  - inversion H; subst. exists []. split; constructor.
  - apply all_split in H. destruct H as (t1 & x & x' & A1 & A2 & -> & A4). destruct (IH _ _ _ A2) as (ys & B1 & B2). exists (tell c x :: ys).
    split; [|now constructor]. econstructor; [|exact B1]. apply does_parts. eauto.
Qed.
Lemma parts_stay R k cs : Forall (cstays R k) cs -> Forall (stays R k) (flat_map parts cs).
Proof.
  intros F. induction F as [|c cs H F IH]; cbn [flat_map]; [constructor|]. apply Forall_app. split; [|exact IH].
  destruct c as [it|s p v|s p]; cbn [cstays parts] in *.
  - auto.
  - destruct H as [H1 H2]. constructor; [exact H1|]. constructor; [exact H2|constructor].
  - constructor; [exact H|constructor].
Qed.
Lemma parts_len cs : length (flat_map parts cs) <= 2 * length cs.
Proof. induction cs as [|c cs IH]; cbn [flat_map length]; [lia|]. rewrite app_length. destruct c; cbn [parts length]; lia. Qed.

(** ** all goroutines at the same time *)
(** the goroutines with the calls of the trie *)
Lemma small_gs rf t (gs : list (key_t * list scall * list sreply)) : Forall (calone rf t) gs ->
  exists ws : list (key_t * list scall * list sreply * list reply), map fst ws = gs /\
    Forall (fun w => tells (snd (fst (fst w))) (snd w) (snd (fst w)) /\ exists t', does_all rf t (flat_map parts (snd (fst (fst w)))) t' (snd w)) ws.
Proof.
  intros F. induction F as [|[[k cs] ys] gs [t' H] F (ws & E & W)]; [exists []; auto|]. cbn [fst snd] in H.
  destruct (does_tells _ _ _ _ _ H) as (xs & D & T). exists ((k, cs, ys, xs) :: ws). split; [cbn; congruence|]. constructor; [cbn; eauto|exact W].
Qed.
Definition flat (w : key_t * list scall * list sreply * list reply) : key_t * list item * list reply :=
  (fst (fst (fst w)), flat_map parts (snd (fst (fst w))), snd w).
Theorem race_calls grow rf dep h0 R gs gs' sch : tree_in h0 R -> Forall (ckeeps R) gs -> capart gs -> Forall (calone (S rf) (Tr R (nn h0))) gs ->
  Forall (fun g => depth R + 2 * length (snd (fst g)) <= dep) gs -> Permutation gs gs' ->
  let out := schedule sch (map (fun g => p_calls grow (S rf) dep (nid R) (snd (fst g))) gs) h0 in
  (forall p, In p (fst out) -> p <> Die /\ p <> Spin) /\
  (forall i ys, nth_error (fst out) i = Some (Ret ys) -> option_map snd (nth_error gs i) = Some ys) /\
  (Forall (fun p => exists ys, p = Ret ys) (fst out) -> exists R' t', tree_in (snd out) R' /\ nid R' = nid R /\
     does_cs (S rf) (Tr R (nn h0)) (concat (map (fun g => snd (fst g)) gs')) t' (concat (map snd gs')) /\ wf_tr t' /\ noid R' = noid (root t')).
Proof.
  intros T K A AL DP PM. destruct (small_gs _ _ _ AL) as (ws & E & W). subst gs.
  apply Permutation_sym, Permutation_map_inv in PM. destruct PM as (ws' & -> & PM).
  rewrite Forall_forall in W. rewrite Forall_map, Forall_forall in K, DP.
  destruct (race_like grow rf dep h0 R (map flat ws) (map flat ws') (map (fun g => p_calls grow (S rf) dep (nid R) (snd (fst g))) (map fst ws)) (map snd (map fst ws)) sch)
    as (C1 & C2 & C3); auto.
  - rewrite Forall_map, Forall_forall. intros w Hw. destruct (K w Hw) as [K1 K2]. split; [exact K1|]. cbn [flat fst snd]. now apply parts_stay.
  - intros i j g g' N X Y. rewrite map_map, nth_error_map in X, Y. destruct (nth_error ws i) as [w|] eqn:Ew; [|discriminate]. destruct (nth_error ws j) as [w'|] eqn:Ew'; [|discriminate].
    injection X as <-. injection Y as <-. cbn [flat fst]. apply (A i j (fst w) (fst w') N); now rewrite nth_error_map, ?Ew, ?Ew'.
  - rewrite Forall_map, Forall_forall. intros w Hw. destruct (W w Hw) as [_ [t' D]]. exists t'. exact D.
  - rewrite Forall_map, Forall_forall. intros w Hw. specialize (DP w Hw). cbn [flat fst snd] in *. pose proof (parts_len (snd (fst (fst w)))). lia.
  - now apply Permutation_map.
  - now rewrite !map_length.
  - intros i g p. rewrite !nth_error_map. destruct (nth_error ws i) as [w|] eqn:Ew; [|discriminate]. cbn [option_map]. intros X Y. injection X as <-. injection Y as <-.
    exists (snd (fst w)). split; [reflexivity|]. cbn [flat fst snd]. apply calls_like. apply W. eapply nth_error_In; eauto.
  - split; [exact C1|]. split.
    + intros i ys H. rewrite <- nth_error_map. now apply C2.
    + intros F. destruct (C3 F) as (R' & t' & B1 & B2 & B3 & B4 & B5). exists R', t'. split; [exact B1|]. split; [exact B2|]. split; [|auto].
      rewrite map_map in B3. cbn [flat fst snd] in B3. rewrite !map_map.
      assert (FM : concat (map (fun w : key_t * list scall * list sreply * list reply => flat_map parts (snd (fst (fst w)))) ws') =
        flat_map parts (concat (map (fun w => snd (fst (fst w))) ws'))).
      { clear. induction ws' as [|w ws' IH]; [reflexivity|]. cbn [map concat]. rewrite IH, flat_map_app. reflexivity. }
      rewrite FM, map_map in B3. cbn [flat snd] in B3. destruct (tells_does _ _ _ _ _ B3) as (ys & D & TT).
      assert (TT' : tells (concat (map (fun w : key_t * list scall * list sreply * list reply => snd (fst (fst w))) ws')) (concat (map snd ws')) (concat (map (fun w => snd (fst w)) ws'))).
      { assert (W' : forall w, In w ws' -> tells (snd (fst (fst w))) (snd w) (snd (fst w))).
        { intros w Hw. apply W. eapply Permutation_in; [symmetry; exact PM|exact Hw]. }
        clear -W'. induction ws' as [|w ws' IH]; [constructor|]. cbn [map concat]. apply tells_app; [apply W'; now left|]. apply IH. intros w' Hw. apply W'. now right. }
      rewrite (tells_fun _ _ _ _ TT' TT). exact D.
Qed.
Theorem calls_end grow rf dep h0 R gs f : tree_in h0 R -> Forall (ckeeps R) gs -> capart gs -> Forall (calone (S rf) (Tr R (nn h0))) gs ->
  Forall (fun g => depth R + 2 * length (snd (fst g)) <= dep) gs -> fair (length gs) f ->
  exists n, fst (schedule (map f (seq 0 n)) (map (fun g => p_calls grow (S rf) dep (nid R) (snd (fst g))) gs) h0) = map (fun g => Ret (snd g)) gs.
Proof.
  intros T F SP A DP FR. set (ps := map (fun g => p_calls grow (S rf) dep (nid R) (snd (fst g))) gs).
  destruct (all_end f ps h0) as [n H]; [unfold ps; now rewrite map_length|].
  exists n. unfold after in H. destruct (race_calls grow rf dep h0 R gs gs (map f (seq 0 n)) T F SP A DP (Permutation_refl _)) as (AL & RT & _). fold ps in AL, RT.
  apply nth_same. intros i. destruct (nth_error (fst (schedule (map f (seq 0 n)) ps h0)) i) as [p|] eqn:E.
  - apply nth_error_In in E as Hp. rewrite Forall_forall in H. specialize (H p Hp). specialize (AL p Hp).
    destruct p as [xs| | |a k|a g k|s k|r j k|r j x k|r k|l k]; cbn in H; try tauto; try (destruct AL; congruence).
    apply RT in E. rewrite nth_error_map. destruct (nth_error gs i) as [g|]; cbn in *; congruence.
  - symmetry. apply nth_error_None in E. apply nth_error_None. rewrite turns_length in E. unfold ps in E. rewrite !map_length in *. exact E.
Qed.
(** calls without patterns always have a result *)
Theorem calls_alone rf (D : rune -> Prop) cs t : wf_tr t -> (forall d, D d -> plain_tree d [] (root t)) -> Forall (ctame D) cs ->
  exists t' ys, does_cs (S rf) t cs t' ys.
Proof.
  intros W P F. destruct (tame_all rf D (flat_map parts cs) t W P) as (t' & xs & H).
  - clear -F. induction F as [|c cs H F IH]; cbn [flat_map]; [constructor|]. apply Forall_app. split; [|exact IH].
    destruct c as [it|s p v|s p]; cbn [ctame parts] in *.
    + auto.
    + destruct H as (H2 & H3). constructor; [split; [exact H2|discriminate]|]. constructor; [|constructor]. split; auto.
    + constructor; [|constructor]. split; [exact H|discriminate].
  - destruct (tells_does _ _ _ _ _ H) as (ys & X & _). eauto.
Qed.

(** ** the same as a function, for the examples *)
Definition run_c (rf : nat) (t : tr) (c : scall) : res (tr * sreply) :=
  match c with
  | It it => do (t', x) <- run_i rf t it; Ok (t', Rep x)
  | StSet s p v => do (t', _, old, es) <- st_Set rf s t p v; Ok (t', Told old es)
  | StRm s p => do (t', b, es) <- st_Remove rf s t p; Ok (t', Gone b es)
  end.
Fixpoint run_cs (rf : nat) (t : tr) (cs : list scall) : res (tr * list sreply) :=
  match cs with
  | [] => Ok (t, [])
  | c :: cs => do (t1, y) <- run_c rf t c; do (t2, ys) <- run_cs rf t1 cs; Ok (t2, y :: ys)
  end.
Lemma run_cs_does rf cs : forall t t' ys, run_cs rf t cs = Ok (t', ys) -> does_cs rf t cs t' ys.
Proof.
  induction cs as [|c cs IH]; cbn [run_cs]; intros t t' ys E; [injection E as <- <-; constructor|].
  destruct (run_c rf t c) as [[t1 y]| |] eqn:E1; cbn [bind] in E; try discriminate. destruct (run_cs rf t1 cs) as [[t2 zs]| |] eqn:E2; cbn [bind] in E; try discriminate.
  injection E as <- <-. econstructor; [|eauto]. destruct c as [it|s p v|s p]; cbn [run_c does_c] in *.
  - destruct (run_i rf t it) as [[t3 x]| |] eqn:E3; cbn [bind] in E1; try discriminate. injection E1 as <- <-. exists x. split; [now apply run_does_i|reflexivity].
  - destruct (st_Set rf s t p v) as [[[[t3 id] old] es]| |]; cbn [bind] in E1; try discriminate. injection E1 as <- <-. eauto 6.
  - destruct (st_Remove rf s t p) as [[[t3 b] es]| |]; cbn [bind] in E1; try discriminate. injection E1 as <- <-. eauto.
Qed.
