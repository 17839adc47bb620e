(** Copies and walks of a tree in memory. *)
From Coq Require Import List NArith Bool Arith Lia.
From Verif Require Import GoStr Utf8 Node NodeWf InsertProofs MatchProofs Trie TreeOps Spec Refine Climb ApiRefine Reach Effect
  Derived Derived2 Derived3 Derived4 Derived5 Heap HeapProofs.
Import ListNotations.
Open Scope nat_scope.

Fixpoint depth (n : node) : nat :=
  S ((fix go (l : list node) : nat := match l with [] => 0 | k :: t => Nat.max (depth k) (go t) end) (nkids n)).
Lemma depth_kid n k : In k (nkids n) -> depth k < depth n.
Proof.
  destruct n as [a p b ks e f g h i]. cbn [nkids depth]. induction ks as [|x ks IH]; [easy|].
  intros [->|H]; [lia|]. specialize (IH H). lia.
Qed.
Lemma frame_sub h h' (P : nat -> Prop) n : hwf h -> frame h h' P -> repr h n -> (forall a, P a -> nn h <= a) -> repr h' n.
Proof.
  intros W F R H. apply repr_frame with (h := h) (P := P); auto. intros a Ha Pa. pose proof (repr_alloc h n W R) as AL.
  rewrite Forall_forall in AL. apply AL in Ha. apply H in Pa. lia.
Qed.

Lemma dup_start h m l : hwf h -> hkids m = Sl 0 0 ->
  let h1 := set_node (new_arr (new_node h m) l) (nn h) (w_kids (Sl (na h) 0) m) in
  hwf h1 /\ frame h h1 (fun _ => False) /\ snaps h h1.
Proof.
  intros W K h1. destruct (hwf_nil h W) as [Z0 Z1].
  assert (Hh : forall a, hn h1 a = if a =? nn h then Some (w_kids (Sl (na h) 0) m) else hn h a).
  { intros a. unfold h1. cbn. destruct (a =? nn h); reflexivity. }
  assert (Ha : forall q, ha h1 q = if q =? na h then l else ha h q) by reflexivity.
  assert (Nn : nn h1 = S (nn h)) by reflexivity. assert (Na : na h1 = S (na h)) by reflexivity. clearbody h1.
  split; [constructor|split].
  - intros a s. rewrite Hh, Ha, Nn, Na. destruct (Nat.eqb_spec a (nn h)) as [->|D]; intros X.
    + injection X as <-. cbn. rewrite Nat.eqb_refl. lia.
    + destruct (hwf_in h W _ _ X). neqb. lia.
  - intros a b s t. rewrite !Hh. destruct (Nat.eqb_spec a (nn h)) as [->|D]; intros X; destruct (Nat.eqb_spec b (nn h)) as [->|D']; intros Y N Q.
    + tauto.
    + injection X as <-. cbn in Q. destruct (hwf_in h W _ _ Y). lia.
    + injection Y as <-. cbn in Q. destruct (hwf_in h W _ _ X). lia.
    + now apply (hwf_own h W a b s t).
  - rewrite Ha, Na. neqb. split; [exact Z0|lia].
  - intros a s X _. destruct (hwf_in h W _ _ X). rewrite Hh. neqb. split; auto. unfold kids_of. rewrite Ha. now neqb.
  - intros r k (S1 & S2 & S3). rewrite Ha. replace (r =? na h) with false by (symmetry; apply Nat.eqb_neq; lia). split; auto.
    split; [lia|]. rewrite Ha. replace (r =? na h) with false by (symmetry; apply Nat.eqb_neq; lia). split; auto.
    intros a s. rewrite Hh. destruct (Nat.eqb_spec a (nn h)) as [->|D]; intros X Q; [|now apply (S3 a)].
    injection X as <-. cbn in Q. lia.
Qed.

Lemma own_snap h a s : hwf h -> hn h a = Some s -> snap h (sl_arr (hkids s)) (sl_len (hkids s)).
Proof.
  intros W E. destruct (hwf_in h W _ _ E) as (_ & L1 & L2). split; [exact L1|]. split; [exact L2|].
  intros b t X Q. destruct (Nat.eq_dec a b) as [->|D]; [assert (t = s) as -> by congruence; lia|].
  assert (sl_arr (hkids s) = 0) as Z by (apply (hwf_own h W a b s t); auto). rewrite Z in L2. destruct (hwf_nil h W) as [Z0 _].
  rewrite Z0 in L2. cbn in L2. lia.
Qed.

Section Dup.
Variable grow : nat -> nat.
Variable clone : gval -> gval.

Definition dup_ok (f : nat) : Prop := forall h n, hwf h -> repr h n -> depth n <= f ->
  let '(n', nx') := dupNode clone n (nn h) in
  exists h', run (p_dup grow clone f (nid n)) h = Ok (h', nn h) /\ hwf h' /\ nn h' = nx' /\ nn h < nx' /\ repr h' n' /\
    nid n' = nn h /\ Forall (fun a => nn h <= a) (ids n') /\ frame h h' (fun _ => False) /\ snaps h h'.

Lemma dups_spec f x r : dup_ok f -> forall ks pre h done sx, hwf h -> hn h x = Some sx ->
  kids_of h sx = map nid done -> Forall (repr h) done -> Forall (fun m => Forall (fun a => x < a) (ids m)) done ->
  snap h r (length (pre ++ ks)) -> firstn (length (pre ++ ks)) (ha h r) = map nid (pre ++ ks) ->
  Forall (repr h) ks -> Forall (fun m => ~ In x (ids m)) ks -> Forall (fun m => depth m <= f) ks ->
  let '(ks', nx') := dupKids clone ks (nn h) in
  exists h' sl, run (p_dups grow (p_dup grow clone f) x r (length pre) (length ks)) h = Ok (h', tt) /\ hwf h' /\
    nn h' = nx' /\ nn h <= nx' /\ hn h' x = Some (w_kids sl sx) /\ kids_of h' (w_kids sl sx) = map nid (done ++ ks') /\
    Forall (repr h') (done ++ ks') /\ Forall (fun m => Forall (fun a => x < a) (ids m)) (done ++ ks') /\
    Forall (fun m => Forall (fun a => nn h <= a) (ids m)) ks' /\
    frame h h' (fun a => a = x) /\ snaps h h'.
Proof.
  intros OK. induction ks as [|k ks IH]; intros pre h done sx W Ex Kx Rd Xd SN SF Rs Xs Ds; cbn [dupKids].
  - exists h, (hkids sx). cbn [length p_dups run]. rewrite app_nil_r. assert (w_kids (hkids sx) sx = sx) as -> by now destruct sx.
    do 9 (split; [solve [auto]|]). split; [apply frame_refl|apply snaps_refl].
  - inversion Rs as [|? ? Rk Rs']; inversion Xs as [|? ? Xk Xs']; inversion Ds as [|? ? Dk Ds']; subst.
    specialize (OK h k W Rk Dk). destruct (dupNode clone k (nn h)) as [k' x1].
    destruct OK as (h1 & R1 & W1 & N1 & N1' & Rk' & Ik' & Ak' & F1 & S1).
    cbn [length p_dups run].
    assert (NE : nth_error (ha h r) (length pre) = Some (nid k)).
    { rewrite <- (firstn_skipn (length (pre ++ k :: ks)) (ha h r)), SF, map_app, <- app_assoc.
      rewrite nth_error_app2 by (rewrite map_length; lia). rewrite map_length, Nat.sub_diag. reflexivity. }
    rewrite NE, run_seq, R1. destruct (F1 x sx Ex) as [Ex1 Kx1]; [tauto|]. cbn [run]. rewrite Ex1, run_seq.
    destruct (append_spec grow h1 x sx (nn h) W1 Ex1) as (h2 & sl & -> & Hn2 & Nn2 & W3 & K3 & F3 & S3). cbn [run].
    rewrite Hn2, Ex1. set (h3 := set_node h2 x (w_kids sl sx)) in *.
    assert (E3 : hn h3 x = Some (w_kids sl sx)) by (unfold h3; cbn; now rewrite Nat.eqb_refl).
    assert (N3 : nn h3 = x1) by (unfold h3; cbn; congruence).
    assert (FR : frame h h3 (fun a => a = x)).
    { apply frame_trans with (h1 := h1) (Q := fun a => a = x); auto. apply frame_weaken with (1 := F1). tauto. }
    destruct (hwf_in h W _ _ Ex) as (Lx & _).
    assert (Xk' : Forall (fun a => x < a) (ids k')).
    { eapply Forall_impl; [|exact Ak']. cbn. intros a Ha. lia. }
    specialize (IH (pre ++ [k]) h3 (done ++ [k']) (w_kids sl sx) W3 E3).
    rewrite <- app_assoc in IH. cbn [app] in IH. rewrite N3 in IH.
    assert (NX : forall a, Forall (fun b => x < b) a -> ~ In x a).
    { intros a H Hx. rewrite Forall_forall in H. apply H in Hx. lia. }
    destruct (S1 _ _ SN) as [SN1 SE1]. destruct (S3 _ _ SN1) as [SN3 SE3].
    destruct (dupKids clone ks x1) as [ks' x2].
    destruct IH as (h' & sl' & RUN & W' & N' & L' & E' & K' & R' & X' & A' & F' & S').
    + rewrite K3, Kx1, Kx, map_app. cbn. now rewrite Ik'.
    + apply Forall_app. split; [|constructor; [|constructor]].
      * rewrite Forall_forall in *. intros m Hm. apply repr_frame with (h := h) (P := fun a => a = x); auto.
        intros a Ha ->. revert Ha. apply NX. auto.
      * apply repr_frame with (h := h1) (P := fun a => a = x); auto. intros a Ha ->. revert Ha. now apply NX.
    + apply Forall_app. auto.
    + exact SN3.
    + rewrite SE3, SE1. exact SF.
    + rewrite Forall_forall in *. intros m Hm. apply repr_frame with (h := h) (P := fun a => a = x); auto.
      intros a Ha ->. now apply (Xs' m).
    + exact Xs'.
    + exact Ds'.
    + exists h', sl'. rewrite app_length in RUN. cbn [length] in RUN. rewrite Nat.add_1_r in RUN.
      split; [exact RUN|]. split; [exact W'|]. split; [exact N'|]. split; [lia|]. split; [exact E'|].
      rewrite <- app_assoc in K', R', X'. cbn [app] in K', R', X'. split; [exact K'|]. split; [exact R'|]. split; [exact X'|].
      split; [constructor; [exact Ak'|]|].
      * eapply Forall_impl; [|exact A']. cbn. intros m Hm. eapply Forall_impl; [|exact Hm]. cbn. intros a. lia.
      * split; [|apply snaps_trans with h1; auto; now apply snaps_trans with h3].
        apply frame_trans with (h1 := h3) (Q := fun a => a = x); auto.
Qed.

Lemma dup_spec f : dup_ok f.
Proof.
  induction f as [|f IH]; intros h n W R D; [destruct n; cbn in D; lia|].
  pose proof (repr_alloc h n W R) as AL. pose proof R as R0. apply repr_eq in R. destruct R as [(s & E & Ft & K) Rk].
  rewrite dupNode_eq. cbn [p_dup run]. rewrite E. cbn [na new_node].
  set (m := HN (hpath s) (hpathS s) (Sl 0 0) GNil [] [] GNil (htype s)).
  set (l := repeat 0 (sl_len (hkids s))).
  destruct (dup_start h m l W eq_refl) as (W1 & F1 & S1).
  cbn [hn new_arr new_node]. rewrite Nat.eqb_refl.
  set (h1 := set_node (new_arr (new_node h m) l) (nn h) (w_kids (Sl (na h) 0) m)) in *.
  assert (E1 : hn h1 (nn h) = Some (w_kids (Sl (na h) 0) m)) by (unfold h1; cbn; now rewrite Nat.eqb_refl).
  pose proof (kids_len h _ s _ W E K) as KL. rewrite map_length in KL.
  pose proof (own_snap h _ s W E) as SN. destruct (S1 _ _ SN) as [SN1 SE1].
  pose proof (dups_spec f (nn h) (sl_arr (hkids s)) IH (nkids n) [] h1 [] _ W1 E1) as LP.
  assert (N1 : nn h1 = S (nn h)) by reflexivity. rewrite N1 in LP. cbn [app length map] in LP. rewrite <- KL in LP.
  rewrite ids_eq in AL. inversion AL as [|? ? A1 A2]; subst.
  destruct (dupKids clone (nkids n) (S (nn h))) as [ks' x2].
  destruct LP as (h2 & sl & RUN & W2 & N2 & L2 & E2 & K2 & R2 & X2 & _ & F2 & S2).
  - unfold kids_of. cbn. destruct (hwf_nil h W) as [Z0 _]. reflexivity.
  - constructor.
  - constructor.
  - exact SN1.
  - rewrite SE1. exact K.
  - rewrite Forall_forall in *. intros k Hk. apply frame_sub with (h := h) (P := fun _ => False); auto. tauto.
  - rewrite Forall_forall in *. intros k Hk Hx.
    specialize (A2 (nn h)). assert (nn h < nn h) by (apply A2; apply in_flat_map; eauto). lia.
  - rewrite Forall_forall. intros k Hk. apply depth_kid in Hk. lia.
  - rewrite run_seq, RUN. cbn [run]. destruct (F1 _ _ E) as [Es1 _]; [tauto|]. destruct (F2 _ _ Es1) as [Es2 _]; [lia|].
    rewrite Es2, E2. eexists. split; [reflexivity|]. set (fx := w_data (clone (hdata s)) (w_kids sl (w_kids (Sl (na h) 0) m))).
    split; [now apply set_node_wf with (1 := W2) (2 := E2)|]. split; [exact N2|]. split; [lia|].
    assert (F3 : frame h2 (set_node h2 (nn h) fx) (fun b => b = nn h)) by apply set_node_frame.
    split; [|split; [reflexivity|split; [|split]]].
    + apply repr_eq. cbn [nid nkids]. split.
      * exists fx. split; [cbn; now rewrite Nat.eqb_refl|]. split; [|exact K2]. destruct Ft as (P1 & P2 & P3 & _ & _ & _ & P7).
        unfold fits, fx. cbn. rewrite P3. auto 12.
      * rewrite Forall_forall in *. intros k Hk. apply repr_frame with (h := h2) (P := fun b => b = nn h); auto.
        intros a Ha ->. specialize (X2 k Hk). rewrite Forall_forall in X2. apply X2 in Ha. lia.
    + rewrite ids_eq. cbn [nid nkids]. constructor; [lia|]. apply Forall_flat_map. rewrite Forall_forall in *. intros k Hk.
      eapply Forall_impl; [|exact (X2 k Hk)]. cbn. intros a. lia.
    + intros a t X _. destruct (hwf_in h W _ _ X). destruct (F1 a t X) as [Y1 Y2]; [tauto|].
      destruct (F2 a t Y1) as [Y3 Y4]; [lia|]. destruct (F3 a t Y3) as [Y5 Y6]; [lia|]. split; congruence.
    + apply snaps_trans with h1; auto. apply snaps_trans with h2; auto. now apply set_node_snaps with (1 := E2).
Qed.
End Dup.

(** ** what an insertion does to the nodes that are already there *)
Inductive sub (n : node) : node -> Prop :=
| sub_refl : sub n n
| sub_kid k m : In k (nkids n) -> sub k m -> sub n m.
Definition old_ids (k : nat) (l : list nat) : list nat := filter (fun a => a <? k) l.
(** [n'] is [n] with nodes numbered from [k] on added: each subtree is still there *)
Definition kept (k : nat) (n n' : node) : Prop :=
  nid n' = nid n /\ old_ids k (ids n') = old_ids k (ids n) /\
  forall m, sub n m -> exists m', sub n' m' /\ nid m' = nid m /\ old_ids k (ids m') = old_ids k (ids m).

Lemma old_ids_app k a b : old_ids k (a ++ b) = old_ids k a ++ old_ids k b.
Proof. apply filter_app. Qed.
Lemma old_ids_new k a l : k <= a -> old_ids k (a :: l) = old_ids k l.
Proof. intros H. unfold old_ids. cbn [filter]. destruct (Nat.ltb_spec a k); [lia|reflexivity]. Qed.
Lemma old_ids_le k j l : k <= j -> old_ids k (old_ids j l) = old_ids k l.
Proof.
  intros H. induction l as [|a l IH]; [reflexivity|]. unfold old_ids in *. cbn [filter]. destruct (Nat.ltb_spec a j) as [L|L]; cbn [filter].
  - now rewrite IH.
  - rewrite IH. destruct (Nat.ltb_spec a k); [lia|reflexivity].
Qed.
Lemma old_ids_mono k j l l' : k <= j -> old_ids j l = old_ids j l' -> old_ids k l = old_ids k l'.
Proof. intros H E. rewrite <- (old_ids_le k j l H), E. now apply old_ids_le. Qed.
Lemma kept_refl k n : kept k n n.
Proof. repeat split; auto. intros m H. eauto. Qed.
Lemma kept_trans k a b c : kept k a b -> kept k b c -> kept k a c.
Proof.
  intros (A1 & A2 & A3) (B1 & B2 & B3). split; [congruence|]. split; [congruence|]. intros m H.
  destruct (A3 m H) as (m1 & S1 & I1 & E1). destruct (B3 m1 S1) as (m2 & S2 & I2 & E2). exists m2. repeat split; congruence.
Qed.
Lemma kept_mono k j n n' : k <= j -> kept j n n' -> kept k n n'.
Proof.
  intros H (A1 & A2 & A3). split; [exact A1|]. split; [now apply old_ids_mono with j|]. intros m Hm.
  destruct (A3 m Hm) as (m1 & S1 & I1 & E1). exists m1. repeat split; auto. now apply old_ids_mono with j.
Qed.
Lemma sub_trans a b c : sub a b -> sub b c -> sub a c.
Proof. induction 1 as [|n k m Hk _ IH]; auto. intros H. now apply sub_kid with k; auto. Qed.

Lemma kept_kids k b b' l c c' r : nkids b = l ++ c :: r -> nkids b' = l ++ c' :: r -> nid b' = nid b -> kept k c c' -> kept k b b'.
Proof.
  intros E E' I (A1 & A2 & A3).
  assert (X : old_ids k (ids b') = old_ids k (ids b)).
  { rewrite (ids_eq b), (ids_eq b'), E, E', I, !flat_map_app. cbn [flat_map].
    change (nid b :: ?x) with ([nid b] ++ x). rewrite !old_ids_app. now rewrite A2. }
  split; [exact I|]. split; [exact X|]. intros m H. inversion H as [|x y Hx Hs]; subst.
  - exists b'. repeat split; auto. constructor.
  - rewrite E in Hx. apply in_app_iff in Hx. destruct Hx as [Hx|[<-|Hx]].
    + exists m. split; [|auto]. apply sub_kid with x; auto. rewrite E'. apply in_app_iff. auto.
    + destruct (A3 m Hs) as (m' & S' & I' & E1). exists m'. split; [|auto]. apply sub_kid with c'; auto. rewrite E'.
      apply in_app_iff. right. now left.
    + exists m. split; [|auto]. apply sub_kid with x; auto. rewrite E'. apply in_app_iff. right. now right.
Qed.
Lemma kept_same k b b' : nkids b' = nkids b -> nid b' = nid b -> kept k b b'.
Proof.
  intros E I. assert (X : old_ids k (ids b') = old_ids k (ids b)) by (rewrite (ids_eq b), (ids_eq b'); now rewrite E, I).
  split; [exact I|]. split; [exact X|]. intros m H. inversion H as [|x y Hx Hs]; subst.
  - exists b'. repeat split; auto. constructor.
  - exists m. split; [|auto]. apply sub_kid with x; auto. now rewrite E.
Qed.
Lemma kept_leaf k b w fp v nx : k <= nx -> kept k b (insertAsLeaf b w fp v nx).
Proof.
  intros L. assert (X : old_ids k (ids (insertAsLeaf b w fp v nx)) = old_ids k (ids b)).
  { rewrite (ids_eq b), (ids_eq (insertAsLeaf _ _ _ _ _)). unfold insertAsLeaf. cbn [nid set_kids nkids].
    rewrite flat_map_app. cbn [flat_map]. rewrite ids_eq. cbn [new_leaf nid nkids flat_map app].
    change (nid b :: ?x) with ([nid b] ++ x). rewrite !old_ids_app, (old_ids_new k nx) by exact L. cbn. now rewrite app_nil_r. }
  split; [reflexivity|]. split; [exact X|]. intros m H. inversion H as [|x y Hx Hs]; subst.
  - exists (insertAsLeaf m w fp v nx). repeat split; auto. constructor.
  - exists m. split; [|auto]. apply sub_kid with x; auto. unfold insertAsLeaf. cbn. apply in_app_iff. auto.
Qed.
Lemma kept_split k n pos nx b : k <= nx -> split n pos nx = Ok b -> kept k n b.
Proof.
  intros L. unfold split. destruct (_ <=? _); [|discriminate]. intros E. injection E as <-.
  match goal with |- kept k n ?B => set (b := B) end.
  assert (X : old_ids k (ids b) = old_ids k (ids n)).
  { rewrite (ids_eq b), (ids_eq n). cbn [b nid nkids flat_map]. rewrite ids_eq. cbn [nid nkids]. rewrite app_nil_r.
    change (nid n :: ?x) with ([nid n] ++ x). rewrite !old_ids_app, (old_ids_new k nx) by exact L. reflexivity. }
  split; [reflexivity|]. split; [exact X|]. intros m H. inversion H as [|x y Hx Hs]; subst.
  - exists b. repeat split; auto. constructor.
  - exists m. split; [|auto]. eapply sub_kid; [left; reflexivity|]. apply sub_kid with x; auto.
Qed.
Lemma insert_kept k f : forall n word fp v nx ir, k <= nx -> insertInternal f n word fp v nx = Ok ir -> kept k n (ir_node ir).
Proof.
  induction f as [|f IH]; intros n word fp v nx ir L; cbn [insertInternal]; [discriminate|].
  destruct ((length (npath n) =? 0) && _).
  { intros E. injection E as <-. now apply kept_leaf. }
  set (cpl := if (0 <? length (npath n)) && (0 <? length word) then cpl_len word (npath n) else 0).
  set (word' := if 0 <? cpl then skipn cpl word else word).
  assert (ST : forall b nx1, (if cpl <? length (npath n) then do b <- split n cpl nx; Ok (b, S nx) else Ok (n, nx)) = Ok (b, nx1) ->
    k <= nx1 /\ kept k n b).
  { intros b nx1. destruct (cpl <? length (npath n)).
    - destruct (split n cpl nx) as [b'| |] eqn:S; cbn [bind]; try discriminate. intros E. injection E as <- <-. split; [lia|].
      now apply kept_split with (2 := S).
    - intros E. injection E as <- <-. split; [lia|apply kept_refl]. }
  destruct (if cpl <? length (npath n) then _ else _) as [[b nx1]| |]; cbn [bind]; try discriminate.
  destruct (ST b nx1 eq_refl) as [L1 K1]. clear ST.
  destruct (cpl <? length word).
  - destruct (matchChildren word' (nkids b)) as [[[[l c] r]|]| |] eqn:M; cbn [bind]; try discriminate.
    + destruct (insertInternal f c word' fp v nx1) as [ir'| |] eqn:I; cbn [bind]; try discriminate. intros E. injection E as <-.
      cbn [ir_node]. apply kept_trans with (1 := K1).
      assert (Ek : nkids b = l ++ c :: r).
      { clear -M. revert l c r M. induction (nkids b) as [|k ks IH]; intros l c r; cbn [matchChildren]; [discriminate|].
        destruct (npath k) as [|c0 p]; [discriminate|]. destruct word' as [|w w']; [discriminate|].
        destruct (c0 =? w)%N; [intros X; injection X as <- <- <-; reflexivity|].
        destruct (matchChildren (w :: w') ks) as [[[[a d] e]|]| |]; cbn [bind]; try discriminate.
        intros X. injection X as <- <- <-. cbn. f_equal. now apply IH. }
      apply kept_kids with (1 := Ek) (c' := ir_node ir'); auto. eapply IH; [exact L1|exact I].
    + intros E. injection E as <-. cbn [ir_node]. apply kept_trans with (1 := K1). now apply kept_leaf.
  - intros E. injection E as <-. cbn [ir_node]. apply kept_trans with (1 := K1). apply kept_same; reflexivity.
Qed.

Lemma insert_root_wf t path v : wf_tr t -> exists t' ir, insert_root t path v = Ok (t', ir) /\ wf_tr t' /\
  t' = Tr (ir_node ir) (ir_next ir).
Proof.
  intros [WR I]. unfold insert_root.
  destruct (insert_root_spec (root t) (runes path) path v (next t) WR) as (ir & -> & W' & Hp' & R & C1 & C2).
  cbn [bind]. exists (Tr (ir_node ir) (ir_next ir)), ir. split; auto. split; auto. cbn [root next].
  destruct WR as (Hp & W & PL). destruct (ins_rel_ids _ _ _ _ _ _ _ _ _ R I) as (I' & _).
  split; [split; [|split]|]; auto. apply plen_ients. eapply ins_rel_plen; eauto; [apply runes_length|]. now apply plen_ients.
Qed.

(** ** walking while keys are set *)
(** the tree [R] is in memory, and its numbers are addresses *)
Definition tree_in (h : heap) (R : node) : Prop := hwf h /\ repr h R /\ wf_tr (Tr R (nn h)).
Lemma tree_in_nodup h R : tree_in h R -> NoDup (ids R).
Proof. intros (_ & _ & _ & I). cbn in I. destruct I as [I _]. exact I. Qed.
(** from [R] in [h] to [R'] in [h'] only by additions *)
Definition grown (h : heap) (R : node) (h' : heap) (R' : node) : Prop :=
  tree_in h' R' /\ nn h <= nn h' /\ snaps h h' /\ kept (nn h) R R'.
Lemma grown_refl h R : tree_in h R -> grown h R h R.
Proof. intros T. split; [exact T|]. split; [lia|]. split; [apply snaps_refl|apply kept_refl]. Qed.
Lemma grown_trans h R h1 R1 h2 R2 : grown h R h1 R1 -> grown h1 R1 h2 R2 -> grown h R h2 R2.
Proof.
  intros (A1 & A2 & A3 & A4) (B1 & B2 & B3 & B4). split; [exact B1|]. split; [lia|]. split; [now apply snaps_trans with h1|].
  apply kept_trans with (1 := A4). now apply kept_mono with (nn h1).
Qed.
Lemma sub_repr h R m : repr h R -> sub R m -> repr h m.
Proof. intros H S. induction S as [|n k m Hk _ IH]; auto. apply IH. apply repr_eq in H. destruct H as [_ H]. rewrite Forall_forall in H. auto. Qed.
Lemma sub_in R m : sub R m -> In (nid m) (ids R).
Proof.
  induction 1 as [n|n k m Hk _ IH]; rewrite ids_eq; [now left|]. right. apply in_flat_map. eauto.
Qed.

Section Walk.
Variable rt : nat.
Variable cb : nat -> prog unit.
Hypothesis CB : forall a h R, tree_in h R -> nid R = rt -> In a (ids R) ->
  exists h' R', run (cb a) h = Ok (h', tt) /\ grown h R h' R'.

Lemma walk_grown f : forall h R m, tree_in h R -> nid R = rt -> sub R m ->
  match run (p_walk cb f (nid m)) h with
  | Ok (h', l) => (exists R', grown h R h' R') /\ old_ids (nn h) l = old_ids (nn h) (ids m)
  | Panic => False
  | Fuel => True
  end.
Proof.
  induction f as [|f IH]; intros h R m T RT Sm; [exact I|].
  cbn [p_walk]. rewrite run_seq.
  destruct (CB (nid m) h R T RT (sub_in _ _ Sm)) as (h1 & R1 & -> & G1). pose proof G1 as (T1 & N1 & S1 & (RT1 & _ & K1)).
  destruct (K1 m Sm) as (m1 & Sm1 & Im1 & Em1). pose proof T1 as (W1 & RR1 & _).
  pose proof (sub_repr _ _ _ RR1 Sm1) as Rm1. apply repr_eq in Rm1. destruct Rm1 as [(s & Es & Fs & Ks) Rks].
  cbn [run]. rewrite <- Im1, Es, run_seq.
  pose proof (own_snap h1 _ s W1 Es) as SN. pose proof (kids_len h1 _ s _ W1 Es Ks) as KL. rewrite map_length in KL.
  unfold kids_of in Ks. rewrite KL in *. set (r := sl_arr (hkids s)) in *.
  assert (LP : forall ks pre h2 R2, nkids m1 = pre ++ ks -> grown h1 R1 h2 R2 ->
    match run (p_walks (p_walk cb f) r (length pre) (length ks)) h2 with
    | Ok (h', l) => (exists R', grown h1 R1 h' R') /\ old_ids (nn h) l = old_ids (nn h) (flat_map ids ks)
    | Panic => False
    | Fuel => True
    end).
  { induction ks as [|k ks IHk]; intros pre h2 R2 Ek G2; cbn [length p_walks run]; [split; [eauto|reflexivity]|].
    pose proof G2 as (T2 & N2 & S2 & (RT2 & _ & K2)). destruct (S2 _ _ SN) as [SN2 SE2].
    assert (NE : nth_error (ha h2 r) (length pre) = Some (nid k)).
    { rewrite <- (firstn_skipn (length (nkids m1)) (ha h2 r)), SE2, Ks, Ek, map_app, <- app_assoc.
      rewrite nth_error_app2 by (rewrite map_length; lia). rewrite map_length, Nat.sub_diag. reflexivity. }
    rewrite NE, run_seq.
    assert (Sk : sub R1 k).
    { apply sub_trans with (1 := Sm1). apply sub_kid with k; [|constructor]. rewrite Ek. apply in_app_iff. right. now left. }
    destruct (K2 k Sk) as (k2 & Sk2 & Ik2 & Ek2). rewrite <- Ik2.
    specialize (IH h2 R2 k2 T2 ltac:(congruence) Sk2). destruct (run (p_walk cb f (nid k2)) h2) as [[h3 l1]| |]; [|tauto|exact I].
    destruct IH as [(R3 & G3) E3]. rewrite run_seq.
    assert (G13 : grown h1 R1 h3 R3) by now apply grown_trans with h2 R2.
    specialize (IHk (pre ++ [k]) h3 R3). rewrite <- app_assoc, app_length in IHk. cbn [app length] in IHk.
    rewrite Nat.add_1_r in IHk. specialize (IHk Ek G13).
    destruct (run (p_walks (p_walk cb f) r (S (length pre)) (length ks)) h3) as [[h4 l2]| |]; [|tauto|exact I].
    destruct IHk as [G4 E4]. cbn [run flat_map]. split; [exact G4|]. rewrite !old_ids_app, E4. f_equal.
    transitivity (old_ids (nn h) (ids k2)); [apply old_ids_mono with (2 := E3); lia|]. apply old_ids_mono with (2 := Ek2). lia. }
  specialize (LP (nkids m1) [] h1 R1 eq_refl (grown_refl _ _ T1)). cbn [length] in LP.
  destruct (run (p_walks (p_walk cb f) r 0 (length (nkids m1))) h1) as [[h2 l]| |]; [|tauto|exact I].
  destruct LP as [(R2 & G2) E2]. cbn [run]. split; [exists R2; now apply grown_trans with h1 R1|].
  rewrite <- Em1, ids_eq. change (nid m1 :: ?x) with ([nid m1] ++ x). rewrite !old_ids_app. now rewrite E2.
Qed.
End Walk.

Section Sets.
Variable grow : nat -> nat.
(** a Set, from the root of the tree *)
Definition p_set (root : nat) (k : gostring) (v : gval) : prog (nat * gval * list cbcall) :=
  p_insert grow (S (S (length (runes k)))) root (runes k) k v.
Fixpoint p_sets (root : nat) (l : list (gostring * gval)) : prog unit :=
  match l with [] => Ret tt | (k, v) :: l => let* _ := p_set root k v in p_sets root l end.

Lemma set_grown h R k v : tree_in h R -> exists h' t' ir, insert_root (Tr R (nn h)) k v = Ok (t', ir) /\
  run (p_set (nid R) k v) h = Ok (h', (ir_id ir, ir_old ir, ir_calls ir)) /\ next t' = nn h' /\
  grown h R h' (root t') /\ frame h h' (fun a => In a (ids R)).
Proof.
  intros T. pose proof T as (W & RR & WT). destruct (insert_root_wf _ k v WT) as (t' & ir & E & WT' & ->).
  unfold insert_root in E. cbn [root next] in E.
  pose proof (insert_spec grow (S (S (length (runes k)))) h R (runes k) k v W RR (tree_in_nodup _ _ T)) as SP.
  destruct (insertInternal (S (S (length (runes k)))) R (runes k) k v (nn h)) as [ir'| |] eqn:EI; cbn [bind] in E; try discriminate.
  assert (ir' = ir) as -> by congruence. destruct SP as (h' & RUN & W' & N' & L' & R' & I' & F' & S'). 
  exists h', (Tr (ir_node ir) (ir_next ir)), ir. split; [unfold insert_root; cbn [root next]; rewrite EI; reflexivity|].
  split; [exact RUN|]. cbn [next root]. split; [now symmetry|]. split; [|exact F'].
  split; [split; [exact W'|split; [exact R'|rewrite N'; exact WT']]|]. split; [exact L'|]. split; [exact S'|].
  apply insert_kept with (2 := EI). lia.
Qed.
Lemma sets_grown l : forall h R, tree_in h R -> exists h' R', run (p_sets (nid R) l) h = Ok (h', tt) /\ grown h R h' R'.
Proof.
  induction l as [|[k v] l IH]; intros h R T; cbn [p_sets].
  - exists h, R. split; [reflexivity|now apply grown_refl].
  - rewrite run_seq. destruct (set_grown h R k v T) as (h1 & t1 & ir & _ & -> & _ & G1 & _). pose proof G1 as (T1 & _ & _ & (I1 & _)).
    destruct (IH h1 (root t1) T1) as (h2 & R2 & RUN & G2). rewrite I1 in RUN. exists h2, R2. split; [exact RUN|].
    now apply grown_trans with h1 (root t1).
Qed.

(** walk, with a callback that sets keys of its choice when it sees a node *)
Definition p_walk_set (root : nat) (choose : nat -> hnode -> list (gostring * gval)) (fuel : nat) : prog (list nat) :=
  p_walk (fun a => GetN a (fun n => p_sets root (choose a n))) fuel root.
Lemma walk_sets h R choose f : tree_in h R ->
  match run (p_walk_set (nid R) choose f) h with
  | Ok (h', l) => (exists R', grown h R h' R') /\ filter (fun a => a <? nn h) l = map nid (walk R)
  | Panic => False
  | Fuel => True
  end.
Proof.
  intros T. unfold p_walk_set.
  assert (CB : forall a h1 R1, tree_in h1 R1 -> nid R1 = nid R -> In a (ids R1) -> exists h' R',
    run (GetN a (fun n => p_sets (nid R) (choose a n))) h1 = Ok (h', tt) /\ grown h1 R1 h' R').
  { intros a h1 R1 T1 E1 Ha. pose proof T1 as (W1 & RR1 & _).
    assert (EX : exists s, hn h1 a = Some s).
    { clear -Ha RR1. revert Ha RR1. induction R1 as [n IH] using node_ind'. rewrite ids_eq. intros IN R. apply repr_eq in R.
      destruct R as [(s & E & _) Rk]. destruct IN as [<-|IN]; [eauto|]. apply in_flat_map in IN. destruct IN as (k & Hk & IN).
      rewrite Forall_forall in *. eauto. }
    destruct EX as [s Es]. cbn [run]. rewrite Es, <- E1. now apply sets_grown. }
  pose proof (walk_grown (nid R) _ CB f h R R T eq_refl (sub_refl R)) as H.
  destruct (run (p_walk _ f (nid R)) h) as [[h' l]| |]; auto. destruct H as [G E]. split; [exact G|].
  change (filter (fun a => a <? nn h) l) with (old_ids (nn h) l). rewrite E.
  pose proof (repr_alloc h R (proj1 T) (proj1 (proj2 T))) as AL.
  transitivity (ids R).
  - unfold old_ids. rewrite Forall_forall in AL. clear -AL. induction (ids R) as [|a l IH]; [reflexivity|]. cbn [filter].
    destruct (Nat.ltb_spec a (nn h)) as [L|L]; [|specialize (AL a (or_introl eq_refl)); lia]. f_equal. apply IH.
    intros b Hb. apply AL. now right.
  - clear. induction R as [n IH] using node_ind'. rewrite ids_eq. destruct n as [a p b ks e f g h i].
    cbn [walk nid nkids map] in *. f_equal. induction IH as [|k ks Hk _ IHk]; cbn; [reflexivity|]. rewrite map_app. congruence.
Qed.
End Sets.
