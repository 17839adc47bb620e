(** Get and overwriting Set are linearizable; with the old values that setters report they are not. *)
From Coq Require Import List NArith ZArith Bool Arith Lia.
From Verif Require Import GoStr Utf8 Node NodeWf InsertProofs MatchProofs Trie TreeOps Spec Refine Climb ApiRefine Reach Effect
  Derived Derived2 Derived3 Derived4 Derived5 StoreProofs Heap HeapProofs HeapWalk HeapRace HeapGet HeapGetProofs HeapRemoveProofs HeapLin.
Import ListNotations.
Open Scope nat_scope.

(** ** a node without the bit for data holds nil *)
Definition clean_map (m : smap) : Prop := forall k a, sget m k = Some a -> a_has a = false -> a_data a = GNil.
Lemma sget_in m k a : sget m k = Some a -> exists k', In (k', a) m.
Proof.
  induction m as [|[k' b] m IH]; cbn; [discriminate|]. destruct (str_eqb k' k).
  - intros E. injection E as ->. exists k'. now left.
  - intros E. destruct (IH E) as [x Hx]. exists x. now right.
Qed.
Lemma sget_app m m' k : sget (m ++ m') k = match sget m k with Some a => Some a | None => sget m' k end.
Proof. induction m as [|[k' b] m IH]; cbn; auto. now destruct (str_eqb k' k). Qed.
Lemma clean_cons m k b : (a_has b = false -> a_data b = GNil) -> clean_map m -> clean_map ((k, b) :: m).
Proof. intros H C x a. cbn. destruct (str_eqb k x); [intros E; injection E as <-; exact H|apply C]. Qed.
Lemma clean_set w v m : clean_map m -> clean_map (s_set w v m).
Proof.
  intros C. unfold s_set. apply clean_cons.
  - destruct (sget m w); cbn; discriminate.
  - intros k a. rewrite sget_app. destruct (sget (forks w m) k) as [b|] eqn:E; [|apply C].
    intros X _. injection X as <-. apply sget_in in E. destruct E as [k' E]. unfold forks in E. apply in_map_iff in E.
    destruct E as (x & E & _). now injection E as _ <-.
Qed.
Lemma clean_upd w f m : (forall a, (a_has a = false -> a_data a = GNil) -> a_has (f a) = false -> a_data (f a) = GNil) ->
  clean_map m -> clean_map (s_upd w f m).
Proof.
  intros H C. unfold s_upd. destruct (sget m w) as [a|] eqn:E; auto. apply clean_cons; auto. apply H. exact (C _ _ E).
Qed.
Lemma clean_nodeop o a : (a_has a = false -> a_data a = GNil) -> a_has (s_nodeop o a) = false -> a_data (s_nodeop o a) = GNil.
Proof. destruct o; cbn; auto; discriminate. Qed.
Lemma clean_nodeops l : forall a, (a_has a = false -> a_data a = GNil) ->
  a_has (fold_left (fun a o => s_nodeop o a) l a) = false -> a_data (fold_left (fun a o => s_nodeop o a) l a) = GNil.
Proof. induction l as [|o l IH]; intros a H; cbn; auto. apply IH. now apply clean_nodeop. Qed.
Lemma clean_descs dc a : (a_has a = false -> a_data a = GNil) -> a_has (s_descs dc a) = false -> a_data (s_descs dc a) = GNil.
Proof. destruct dc as [|x [|y dc]]; auto. Qed.
Lemma sget_filter_some (f : skey -> bool) m k a : sget (filter (fun e => f (fst e)) m) k = Some a -> sget m k = Some a.
Proof.
  induction m as [|[k' b] m IH]; cbn; auto. destruct (str_eqb k' k) eqn:E.
  - destruct (f k') eqn:F; cbn; [now rewrite E|]. intros X. exfalso.
    assert (N : forall m, sget (filter (fun e : skey * attr => f (fst e)) m) k = None).
    { clear -E F. induction m as [|[x c] m IH]; cbn; auto. destruct (f x) eqn:Fx; cbn; auto. destruct (str_eqb x k) eqn:Ex; auto.
      apply str_eqb_eq in E. apply str_eqb_eq in Ex. congruence. }
    rewrite N in X. discriminate.
  - destruct (f k'); cbn; rewrite ?E; auto.
Qed.
Lemma clean_step v m o : clean_map m -> clean_map (fst (s_step v m o)).
Proof.
  intros C. destruct o; cbn [s_step fst]; auto using clean_set.
  - apply clean_upd; [apply clean_descs|now apply clean_set].
  - apply clean_upd; [apply clean_nodeop|now apply clean_set].
  - apply clean_upd; [apply clean_nodeops|now apply clean_set].
  - apply clean_upd; [apply clean_nodeops|now apply clean_set].
  - destruct (s_search _ _ _ _) as [k|[|c k]|]; cbn [fst]; auto; (apply clean_upd; [apply clean_nodeop|exact C]).
  - destruct (s_search _ _ _ _) as [k|[|c k]|]; cbn [fst]; auto; (apply clean_upd; [apply clean_nodeop|exact C]).
  - unfold s_remove. destruct (s_hit _) as [[|c k]|]; cbn [fst]; auto. intros x a E.
    apply (sget_filter_some (fun k' => negb (has_prefix (c :: k) k'))) in E. now apply C in E.
  - destruct (s_query _ _ _) as [[x y] z]; auto.
  - destruct (s_query _ _ _) as [[x y] z]; auto.
  - destruct (s_query _ _ _) as [[x y] z]; auto.
  - destruct (s_query _ _ _) as [[x y] z]; auto.
Qed.
Lemma plain_clean D t : plain_reach D t -> forall k n, In (k, n) (ents [] (root t)) -> hasData n = false -> ndata n = GNil.
Proof.
  intros PR. assert (C : clean_map (entries t)).
  { induction PR as [|rf h o t t' r PR IH Hd OP E].
    - intros k a. cbn. destruct k; cbn; [|discriminate]. intros X. now injection X as <-.
    - destruct (plain_reach_step D rf h t o PR Hd) as (t1 & E1 & _ & A). rewrite E in E1. injection E1 as <- _.
      intros k a. rewrite <- (abs_entries t' k), (A k). apply (clean_step _ _ _ IH). }
  intros k n Hin HD. destruct (plain_reach_inv D t PR) as [WT _]. specialize (C k (attr_of (info_of n))).
  apply C; [|rewrite hasData_bit in HD; exact HD].
  rewrite <- (abs_entries t k). replace (look (root t) k) with (Some (info_of n)); [reflexivity|].
  symmetry. apply look_in; [apply (proj1 WT)|]. unfold ients. apply in_map_iff. exists (k, n). auto.
Qed.

(** ** what is in memory determines the tree *)
Lemma repr_fun h : forall n n', repr h n -> repr h n' -> nid n = nid n' -> n = n'.
Proof.
  induction n as [n IH] using node_ind'. intros n' R R' E. apply repr_eq in R. apply repr_eq in R'.
  destruct R as [(s & E1 & Ft & K) Rk]. destruct R' as [(s' & E1' & Ft' & K') Rk']. rewrite <- E in E1'.
  assert (s' = s) as -> by congruence. rewrite K in K'.
  assert (KS : nkids n = nkids n').
  { revert K' Rk Rk'. generalize (nkids n'). clear -IH. induction IH as [|k ks Hk _ IHk]; intros [|k' ks'] K R R'; cbn in K; try discriminate; auto.
    injection K as K1 K2. inversion R; inversion R'; subst. f_equal; auto. }
  destruct Ft as (A1 & A2 & A3 & A4 & A5 & A6 & A7), Ft' as (B1 & B2 & B3 & B4 & B5 & B6 & B7).
  destruct n, n'. cbn in *. congruence.
Qed.

(** ** memories that differ in values, descriptions, comments, tags and bits for data *)
Definition kin (s t : hnode) : Prop := same s t /\ (htype t = htype s \/ htype t = N.lor (htype s) NTData).
Lemma kin_refl s : kin s s.
Proof. repeat split; auto. Qed.
Lemma kin_branch a b s t : kin s t -> isBranch (view a t) = isBranch (view b s).
Proof.
  intros (_ & T). unfold isBranch, view. cbn [ntype]. destruct T as [->| ->]; auto. rewrite land_lor_data; auto.
Qed.
Record kept (h0 h : heap) : Prop := {
  kp_arr : ha h = ha h0;
  kp_nn : nn h = nn h0 /\ na h = na h0;
  kp_none : forall a, hn h0 a = None -> hn h a = None;
  kp_node : forall a s, hn h0 a = Some s -> exists t, hn h a = Some t /\ kin s t }.
Lemma kept_refl h : kept h h.
Proof. constructor; auto. intros a s E. exists s. split; [exact E|apply kin_refl]. Qed.
(** the tree with all that is in memory *)
Fixpoint renew (h : heap) (n : node) : node :=
  let s := match hn h (nid n) with Some s => s | None => HN [] [] (Sl 0 0) GNil [] [] GNil 0%N end in
  mkNode (nid n) (npath n) (npathS n) (map (renew h) (nkids n)) (hdata s) (hdesc s) (hcmt s) (htag s) (htype s).
Lemma renew_eq h n : renew h n =
  let s := match hn h (nid n) with Some s => s | None => HN [] [] (Sl 0 0) GNil [] [] GNil 0%N end in
  mkNode (nid n) (npath n) (npathS n) (map (renew h) (nkids n)) (hdata s) (hdesc s) (hcmt s) (htag s) (htype s).
Proof. now destruct n. Qed.
Lemma renew_repr h0 h n : repr h0 n -> kept h0 h -> repr h (renew h n).
Proof.
  intros R S. induction n as [n IH] using node_ind'. apply repr_eq in R. destruct R as [(s & E & Ft & K) Rk].
  destruct (kp_node _ _ S _ _ E) as (t & Et & (A1 & A2 & A3) & _).
  apply repr_eq. rewrite renew_eq, Et. cbn [nid nkids]. split.
  - exists t. split; [exact Et|]. destruct Ft as (P1 & P2 & P3 & P4 & P5 & P6 & P7). split.
    + unfold fits. cbn. repeat split; congruence.
    + unfold kids_of. rewrite A3, (kp_arr _ _ S). rewrite map_map. erewrite map_ext; [exact K|]. intros k. now rewrite renew_eq.
  - apply Forall_map. rewrite Forall_forall in *. auto.
Qed.
Lemma renew_ents h pre n : ents pre (renew h n) = map (fun e => (fst e, renew h (snd e))) (ents pre n).
Proof.
  revert pre. induction n as [n IH] using node_ind'. intros pre. rewrite (ents_eq pre n), (ents_eq pre (renew h n)).
  cbn [map fst snd]. f_equal; [now rewrite renew_eq|]. rewrite renew_eq. cbn [npath nkids]. rewrite map_flat_map.
  rewrite !flat_map_concat_map, map_map. f_equal. apply map_ext_in. intros k Hk. rewrite Forall_forall in IH. auto.
Qed.
Lemma renew_depth h n : depth (renew h n) = depth n.
Proof.
  induction n as [n IH] using node_ind'. rewrite renew_eq. destruct n as [i p ps ks d de c tg ty]. cbn [depth nkids] in *. f_equal.
  induction IH as [|k ks Hk _ IHk]; cbn; auto. 
Qed.

(** ** overwriting one value *)
Section Over.
Variable h0 : heap.
Variable a : nat.
Variable v : gval.
(** the program reads, sets the bit for data of the node at [a] (true: it has done so), then writes the value and ends *)
Inductive over {A} : bool -> prog A -> Prop :=
| over_node b c s k : hn h0 c = Some s -> (forall t, kin s t -> over b (k t)) -> over b (GetN c k)
| over_elem b r i c k : nth_error (ha h0 r) i = Some c -> over b (k c) -> over b (GetA r i k)
| over_type b s y k : hn h0 a = Some s -> y = N.lor (htype s) NTData -> over true k -> over b (UpdN a (w_type y) k)
| over_data x : over true (UpdN a (w_data v) (Ret x)).
Lemma reads_over {A B} b (x : A) p (q : A -> prog B) : reads h0 x p -> over b (q x) -> over b (seqp p q).
Proof.
  intros R C. induction R as [|c s k E _ IH|r i c k E _ IH]; cbn [seqp]; auto.
  - apply over_node with s; auto. intros t AL. apply IH, AL.
  - apply over_elem with c; auto.
Qed.
Lemma over_seq {A B} b (p : prog A) (f : A -> B) : over b p -> over b (seqp p (fun x => Ret (f x))).
Proof.
  intros O. induction O as [b c s k E _ IH|b r i c k E _ IH|b s y k E Y _ IH|x]; cbn [seqp].
  - apply over_node with s; auto.
  - apply over_elem with c; auto.
  - apply over_type with s; auto.
  - constructor.
Qed.
End Over.
Lemma seqp_ext {A B} (p : prog A) (q q' : A -> prog B) a v h0 b : (forall x, q x = q' x) ->
  over h0 a v b (seqp p q) -> over h0 a v b (seqp p q').
Proof.
  intros H. revert b. induction p as [x| | |c k IH|c f k IH|n k IH|r i k IH|r i x k IH|r k IH|l k IH]; intros b; cbn [seqp]; intros O;
    try (inversion O; fail).
  - now rewrite <- H.
  - inversion O as [? ? s k' E G| | |]; subst. apply over_node with s; auto.
  - inversion O as [| |? s y k' E Y G|x E]; subst.
    + apply over_type with s; auto.
    + match goal with X : Ret _ = seqp _ _ |- _ => destruct k; cbn [seqp] in X; try discriminate; rewrite H in X; cbn [seqp];
        rewrite <- X; constructor end.
  - inversion O as [|? ? ? x k' E G| |]; subst. apply over_elem with x; auto.
Qed.

Lemma insert_over h0 grow f : forall n word m fp v, hwf h0 -> repr h0 n -> wfn n -> In (word, m) (ents [] n) ->
  length word + (match npath n with [] => 1 | _ => 0 end) < f -> over h0 (nid m) v false (p_insert grow f (nid n) word fp v).
Proof.
  induction f as [|f IH]; intros n word m fp v W R WF IN L; [lia|].
  pose proof R as R0. apply repr_eq in R. destruct R as [(s & E & Ft & K) Rk]. pose proof Ft as (P1 & _).
  cbn [p_insert]. apply over_node with s; [exact E|]. intros t ((T1 & _ & T3) & _). rewrite T1, T3, P1.
  rewrite (kids_len h0 _ s _ W E K), map_length. rewrite ents_eq in IN. cbn [app] in IN. destruct IN as [X|X].
  - injection X as <- <-.
    replace ((length (npath n) =? 0) && ((0 <? length (npath n)) && (length (nkids n) =? 0))) with false
      by (destruct (npath n); reflexivity).
    replace (if (0 <? length (npath n)) && (0 <? length (npath n)) then cpl_len (npath n) (npath n) else 0) with (length (npath n)).
    2: { destruct (npath n) as [|a p]; [reflexivity|]. cbn [length Nat.ltb Nat.leb andb].
         pose proof (cpl_app (a :: p) []) as H. rewrite app_nil_r in H. now rewrite H. }
    rewrite Nat.ltb_irrefl. cbn [seqp]. apply over_node with s; [exact E|]. intros b (_ & Tb).
    apply over_type with s; [exact E| |].
    { destruct Tb as [->| ->]; [reflexivity|apply lor_idem]. }
    apply over_node with s; [exact E|]. intros b' _. constructor.
  - apply in_flat_map in X. destruct X as (c & Hc & X). rewrite ents_shift in X. apply in_map_iff in X.
    destruct X as ((w' & q) & X & IN). cbn in X. injection X as <- ->.
    destruct (wfn_kids _ _ WF Hc) as [NE Wc]. destruct (ents_head _ _ _ IN) as [z Ez].
    assert (NE' : w' <> []) by (intros ->; destruct (npath c); [congruence|discriminate]).
    destruct w' as [|w0 w']; [congruence|].
    replace (length (nkids n) =? 0) with false by (symmetry; apply Nat.eqb_neq; destruct (nkids n); [easy|cbn; lia]).
    rewrite !andb_false_r.
    replace (if (0 <? length (npath n)) && (0 <? length (npath n ++ w0 :: w')) then cpl_len (npath n ++ w0 :: w') (npath n) else 0)
      with (length (npath n)).
    2: { rewrite cpl_app. destruct (npath n); reflexivity. }
    rewrite Nat.ltb_irrefl. cbn [seqp].
    replace (length (npath n) <? length (npath n ++ w0 :: w')) with true
      by (symmetry; apply Nat.ltb_lt; rewrite app_length; cbn; lia).
    replace (if 0 <? length (npath n) then skipn (length (npath n)) (npath n ++ w0 :: w') else npath n ++ w0 :: w') with (w0 :: w').
    2: { destruct (npath n) as [|a p]; [reflexivity|]. symmetry. apply skip_app. }
    apply over_node with s; [exact E|]. intros b ((_ & _ & B3) & _). rewrite B3.
    pose proof (kids_len h0 _ s _ W E K) as KL. rewrite map_length in KL.
    assert (FR : fst_rune c = Some w0).
    { unfold fst_rune. destruct (npath c) as [|x p]; [congruence|]. cbn in Ez. now injection Ez as ->. }
    destruct (matchChildren_spec w0 w' (nkids n)) as [(l & c' & rr & MC & Ek & FR')|[_ NO]].
    { apply Forall_forall. intros k Hk. now apply (wfn_kids n). }
    2: { exfalso. now apply (NO c). }
    assert (c' = c) as ->.
    { apply (nodup_fst_eq (nkids n)); [now apply wfn_nodup| |exact Hc|congruence]. rewrite Ek. apply in_app_iff. right. now left. }
    rewrite KL. apply reads_over with (x := Some (nid c)).
    + apply match_reads with l rr; auto. cbn [skipn]. rewrite <- KL. exact K.
    + apply seqp_ext with (q := fun r => Ret ((fun r : nat * gval * list cbcall =>
        let '(id, old, calls) := r in (id, old, calls ++ [(fp, old, id)])) r)).
      { now intros [[id old] calls]. }
      apply over_seq. rewrite Forall_forall in Rk. apply IH; auto. destruct (npath c) as [|x p]; [congruence|].
      rewrite app_length in L. cbn [length] in L. destruct (npath n); cbn [length] in *; lia.
Qed.

(** ** the simulation *)
Definition bit (h : heap) (a : nat) : Prop := exists s, hn h a = Some s /\ N.lor (htype s) NTData = htype s.
Lemma w_type_same s : N.lor (htype s) NTData = htype s -> w_type (N.lor (htype s) NTData) s = s.
Proof. destruct s. cbn. now intros ->. Qed.
Lemma reads_any {A} h0 (x : A) p m : reads h0 x p -> kept h0 m -> run p m = Ok (m, x).
Proof.
  intros R S. induction R as [|a s k E _ IH|r i c k E _ IH]; cbn [run]; auto.
  - destruct (kp_node _ _ S a s E) as (t & -> & AL). apply IH, AL.
  - rewrite (kp_arr _ _ S), E. exact IH.
Qed.
(** [m'] is [m] with [n] at [a] *)
Record changed (m : heap) (a : nat) (n : hnode) (m' : heap) : Prop := {
  ch_here : hn m' a = Some n;
  ch_else : forall c, c <> a -> hn m' c = hn m c;
  ch_rest : ha m' = ha m /\ nn m' = nn m /\ na m' = na m }.
Lemma changed_set m a n : changed m a n (set_node m a n).
Proof.
  constructor; cbn; auto.
  - now rewrite Nat.eqb_refl.
  - intros c N. apply Nat.eqb_neq in N. now rewrite N.
Qed.
Lemma changed_state h0 m a n m' s : kept h0 m -> changed m a n m' -> hn m a = Some s -> kin s n -> kept h0 m'.
Proof.
  intros S [C1 C2 (C3 & C4 & C5)] E AL. constructor.
  - rewrite C3. apply (kp_arr _ _ S).
  - rewrite C4, C5. apply (kp_nn _ _ S).
  - intros c Ec. destruct (Nat.eq_dec c a) as [->|N]; [|rewrite C2; auto; now apply (kp_none _ _ S)].
    rewrite (kp_none _ _ S _ Ec) in E. discriminate.
  - intros c sc Ec. destruct (kp_node _ _ S c sc Ec) as (t & Et & AL').
    destruct (Nat.eq_dec c a) as [->|N]; [|exists t; rewrite C2 by exact N; auto].
    assert (t = s) as -> by congruence. exists n. split; [exact C1|].
    destruct AL as ((A1 & A2 & A3) & A7), AL' as ((B1 & B2 & B3) & B7).
    unfold kin, same. rewrite A1, A2, A3. repeat split; auto.
    destruct A7 as [->| ->], B7 as [->| ->]; auto. right. apply lor_idem.
Qed.
Lemma over_run {A} h0 a v b (p : prog A) : over h0 a v b p -> forall m s, kept h0 m -> hn m a = Some s ->
  (b = true -> N.lor (htype s) NTData = htype s) ->
  exists m' x, run p m = Ok (m', x) /\ changed m a (w_data v (w_type (N.lor (htype s) NTData) s)) m'.
Proof.
  intros O. induction O as [b c s0 k E _ IH|b r i c k E _ IH|b s0 y k E Y _ IH|x]; intros m s S Es B; cbn [run].
  - destruct (kp_node _ _ S c s0 E) as (t & -> & AL). now apply IH.
  - rewrite (kp_arr _ _ S), E. now apply IH.
  - rewrite Es. destruct (kp_node _ _ S a s0 E) as (t & Et & AL). assert (t = s) as -> by congruence.
    assert (Y' : y = N.lor (htype s) NTData).
    { rewrite Y. destruct AL as (_ & [->| ->]); auto. now rewrite lor_idem. }
    pose proof (changed_set m a (w_type y s)) as CH.
    destruct (IH (set_node m a (w_type y s)) (w_type y s)) as (m' & x & RUN & [C1 C2 (C3 & C4 & C5)]).
    + apply changed_state with (2 := CH) (3 := Es); auto. unfold kin, same. cbn. rewrite Y'. auto 12.
    + apply CH.
    + intros _. cbn. rewrite Y'. apply lor_idem.
    + exists m', x. split; [exact RUN|]. constructor.
      * rewrite C1. cbn [htype w_type]. rewrite Y', lor_idem. reflexivity.
      * intros c N. rewrite C2 by exact N. now apply CH.
      * rewrite C3, C4, C5. auto.
  - rewrite Es. eexists _, x. split; [reflexivity|]. rewrite w_type_same by auto. apply changed_set.
Qed.

Lemma put_same {A} (l : list A) i x : i < length l -> nth_error (put l i x) i = Some x.
Proof. revert i. induction l as [|a l IH]; intros [|i] L; cbn in *; try lia; auto. apply IH. lia. Qed.
Lemma put_other {A} (l : list A) i j x : i <> j -> nth_error (put l i x) j = nth_error l j.
Proof. revert i j. induction l as [|a l IH]; intros [|i] [|j] N; cbn; auto; try lia. Qed.
Lemma put_put {A} (l : list A) i x y : put (put l i x) i y = put l i y.
Proof. revert i. induction l as [|a l IH]; intros [|i]; cbn; auto. now rewrite IH. Qed.

Section Lin.
Variables (D : rune -> Prop) (grow : nat -> nat) (rf dep : nat) (h0 : heap) (t0 : tr).
Hypothesis T0 : tree_in h0 (root t0).
Hypothesis P0 : plain_reach D t0.
Hypothesis DP : depth (root t0) <= dep.

(** calls that read, SetTag, and Set of a key that is there *)
Definition admissible (o : gop) : Prop :=
  match o with
  | DoGet h p | DoHas h p | DoHasPart h p | DoAttr _ h p | DoTag h p _ => D (hdelim h)
  | DoSet h p v => D (hdelim h) /\ t_get t0 (runes (replace_byte 32 45 (full h p))) <> None
  | DoSetEx _ _ _ | DoComment _ _ _ _ | DoUpdate _ _ _ => False
  end.

(** [t] in [m] is the tree after the operations that have taken effect; in [h] some bits are set already *)
Record rel (t : tr) (m h : heap) : Prop := {
  rl_tree : tree_in m (root t);
  rl_next : next t = nn m;
  rl_reach : plain_reach D t;
  rl_root : nid (root t) = nid (root t0);
  rl_kept : kept h0 m;
  rl_arr : ha h = ha m /\ nn h = nn m /\ na h = na m;
  rl_sim : forall a, hn h a = hn m a \/
    exists s, hn m a = Some s /\ hn h a = Some (w_type (N.lor (htype s) NTData) s) /\ hdata s = GNil }.

Lemma rel_kept t m h : rel t m h -> kept h0 h.
Proof.
  intros [R1 R2 R3 R4 S (A1 & A2 & A3) SM]. constructor.
  - rewrite A1. apply (kp_arr _ _ S).
  - rewrite A2, A3. apply (kp_nn _ _ S).
  - intros a E. pose proof (kp_none _ _ S a E) as E'. destruct (SM a) as [->|(s & X & _)]; congruence.
  - intros a s E. destruct (kp_node _ _ S a s E) as (t' & Et & AL). destruct (SM a) as [->|(s' & X & -> & _)].
    + exists t'. auto.
    + assert (s' = t') as -> by congruence. eexists. split; [reflexivity|].
      destruct AL as ((B1 & B2 & B3) & B7). unfold kin, same. cbn. repeat split; auto. right.
      destruct B7 as [->| ->]; auto. apply lor_idem.
Qed.
Lemma rel_renew t m h : rel t m h -> root t = renew m (root t0).
Proof.
  intros RL. apply repr_fun with m.
  - apply (rl_tree _ _ _ RL).
  - apply renew_repr with (2 := rl_kept _ _ _ RL). apply T0.
  - rewrite renew_eq. cbn. apply (rl_root _ _ _ RL).
Qed.
Lemma rel_depth t m h : rel t m h -> depth (root t) <= dep.
Proof. intros RL. now rewrite (rel_renew _ _ _ RL), renew_depth. Qed.
(** the node of a key: if its bit is not set it holds nil *)
Lemma rel_clean t m h k n s : rel t m h -> In (k, n) (ents [] (root t0)) -> hn m (nid n) = Some s ->
  hdata s = GNil \/ N.lor (htype s) NTData = htype s.
Proof.
  intros RL Hn Es. assert (Hr : In (k, renew m n) (ents [] (root t))).
  { rewrite (rel_renew _ _ _ RL), renew_ents. apply in_map_iff. exists (k, n). auto. }
  pose proof (plain_clean D t (rl_reach _ _ _ RL) _ _ Hr) as C. rewrite renew_eq, Es in C. unfold hasData in C. cbn in C.
  destruct (N.eqb_spec (N.land (htype s) NTData) 0) as [Z|Z]; [left; auto|right].
  assert (B : N.testbit (htype s) 2 = true).
  { destruct (N.testbit (htype s) 2) eqn:B; auto. exfalso. apply Z. apply N.bits_inj. intros i. rewrite N.land_spec, N.bits_0.
    change NTData with (2 ^ 2)%N. destruct (N.eq_dec i 2) as [->|N2]; [now rewrite B|]. rewrite N.pow2_bits_false by congruence. apply andb_false_r. }
  apply N.bits_inj. intros i. rewrite N.lor_spec. change NTData with (2 ^ 2)%N.
  destruct (N.eq_dec i 2) as [->|N2]; [now rewrite B|]. rewrite N.pow2_bits_false by congruence. apply orb_false_r.
Qed.

(** a program whose operation has not taken effect; [b] is the node whose bit it has set *)
Inductive pend (o : gop) : option nat -> prog reply -> Prop :=
| pe_node b c s k : hn h0 c = Some s -> (forall n, kin s n -> pend o b (k n)) -> pend o b (GetN c k)
| pe_here (more : hnode -> bool) c s k : hn h0 c = Some s ->
    (forall n, kin s n -> more n = true -> pend o None (k n)) ->
    (forall n, kin s n -> more n = false ->
       exists x, k n = Ret x /\ forall t m h, rel t m h -> hn h c = Some n -> does (S rf) t o t x) -> pend o None (GetN c k)
| pe_elem b r i c k : nth_error (ha h0 r) i = Some c -> pend o b (k c) -> pend o b (GetA r i k)
| pe_type b c s y k : hn h0 c = Some s -> y = N.lor (htype s) NTData -> b = None \/ b = Some c ->
    (forall t m h n, rel t m h -> hn m c = Some n -> hdata n = GNil \/ N.lor (htype n) NTData = htype n) ->
    pend o (Some c) k -> pend o b (UpdN c (w_type y) k)
| pe_data c s0 v x : hn h0 c = Some s0 ->
    (forall t m h n, rel t m h -> hn h c = Some n -> N.lor (htype n) NTData = htype n ->
       exists t' m', does (S rf) t o t' x /\ rel t' m' (set_node h c (w_data v n)) /\
         hn m' c = Some (w_data v n) /\ forall a, a <> c -> hn m' a = hn m a) ->
    pend o (Some c) (UpdN c (w_data v) (Ret x))
| pe_tag c s0 v x : hn h0 c = Some s0 ->
    (forall t m h n, rel t m h -> hn m c = Some n ->
       exists t' m', does (S rf) t o t' x /\ tree_in m' (root t') /\ next t' = nn m' /\ plain_reach D t' /\ nid (root t') = nid (root t0) /\
         changed m c (w_tag v n) m') ->
    pend o None (UpdN c (w_tag v) (Ret x))
| pe_ret x : (forall t m h, rel t m h -> does (S rf) t o t x) -> pend o None (Ret x).
Lemma reads_pend {A} o b (x : A) p q : reads h0 x p -> pend o b (q x) -> pend o b (seqp p q).
Proof.
  intros R C. induction R as [|c s k E _ IH|r i c k E _ IH]; cbn [seqp]; auto.
  - apply pe_node with s; auto. intros n AL. apply IH, AL.
  - apply pe_elem with c; auto.
Qed.

(** ** Set *)
Lemma key_node k : t_get t0 k <> None -> exists n, In (k, n) (ents [] (root t0)).
Proof.
  intros H. unfold t_get in H. rewrite <- (abs_entries t0 k) in H. destruct (look (root t0) k) as [i|] eqn:L; [|easy].
  apply look_in in L; [|apply (proj1 (proj2 (proj2 T0)))]. unfold ients in L. apply in_map_iff in L. destruct L as ([k' n] & X & Hn).
  injection X as -> _. eauto.
Qed.
Lemma set_effect hd p v n t m h s : D (hdelim hd) -> In (runes (replace_byte 32 45 (full hd p)), n) (ents [] (root t0)) ->
  rel t m h -> hn h (nid n) = Some s -> N.lor (htype s) NTData = htype s ->
  exists t' m', does (S rf) t (DoSet hd p v) t' Stored /\ rel t' m' (set_node h (nid n) (w_data v s)) /\
    hn m' (nid n) = Some (w_data v s) /\ forall a, a <> nid n -> hn m' a = hn m a.
Proof.
  intros Hd Hn RL Es B. set (kk := replace_byte 32 45 (full hd p)) in *. pose proof (rl_tree _ _ _ RL) as T.
  destruct (set_grown grow m (root t) kk v T) as (m' & t' & ir & E & RUN & N' & G & _).
  rewrite <- (rl_next _ _ _ RL) in E. replace (Tr (root t) (next t)) with t in E by now destruct t.
  assert (ST : Set_ hd t p v = Ok (t', ir_id ir, ir_old ir)) by (unfold Set_; cbv zeta; fold kk; now rewrite E).
  assert (OV : over h0 (nid n) v false (p_set grow (nid (root t)) kk v)).
  { rewrite (rl_root _ _ _ RL). destruct T0 as (W & RR & (WR & WF & PL) & ID). cbn [root] in *. unfold p_set. apply insert_over; auto. rewrite WR. lia. }
  assert (Hm : exists sm, hn m (nid n) = Some sm /\ w_type (N.lor (htype sm) NTData) sm = s).
  { destruct (rl_sim _ _ _ RL (nid n)) as [X|(sm & X & Y & _)].
    - exists s. split; [congruence|]. now apply w_type_same.
    - exists sm. split; [exact X|congruence]. }
  destruct Hm as (sm & Em & Esm).
  destruct (over_run h0 (nid n) v false _ OV m sm (rl_kept _ _ _ RL) Em) as (m2 & x & RUN2 & [C1 C2 (C3 & C4 & C5)]); [discriminate|].
  rewrite RUN in RUN2. injection RUN2 as <- _. rewrite Esm in C1. rewrite <- N' in C4.
  assert (CH : changed m (nid n) (w_data v s) m') by (constructor; auto; repeat split; congruence).
  exists t', m'. split; [cbn; split; eauto|]. split; [|split; [exact C1|exact C2]].
  destruct G as (T' & _ & _ & (I' & _)).
  constructor; auto.
  - apply plain_more with (rf := 0) (h := hd) (o := OSet p v) (t := t) (r := ROld (ir_old ir)); auto; [apply (rl_reach _ _ _ RL)| |].
    + intros d Hd'. fold kk. destruct (plain_reach_inv D t (rl_reach _ _ _ RL)) as [WT PA]. apply (PA d Hd').
      assert (Hr : In (runes kk, renew m n) (ents [] (root t))).
      { rewrite (rel_renew _ _ _ RL), renew_ents. apply in_map_iff. exists (runes kk, n). auto. }
      unfold skeys, entries, ients. rewrite !map_map. apply in_map_iff. exists (runes kk, renew m n). auto.
    + cbn [t_step]. now rewrite ST.
  - rewrite I'. apply (rl_root _ _ _ RL).
  - apply changed_state with (2 := CH) (3 := Em); [apply (rl_kept _ _ _ RL)|]. rewrite <- Esm. unfold kin, same. cbn. auto 12.
  - cbn. destruct (rl_arr _ _ _ RL) as (A1 & A2 & A3). repeat split; congruence.
  - intros a. cbn. destruct (Nat.eqb_spec a (nid n)) as [->|NE]; [left; congruence|]. rewrite C2 by exact NE. apply (rl_sim _ _ _ RL).
Qed.
Lemma set_pend hd p v : admissible (DoSet hd p v) ->
  pend (DoSet hd p v) None (code grow (S rf) dep (nid (root t0)) (DoSet hd p v)).
Proof.
  intros [Hd K]. destruct (key_node _ K) as [n Hn]. cbn [code].
  assert (OV : over h0 (nid n) v false (p_set grow (nid (root t0)) (replace_byte 32 45 (full hd p)) v)).
  { destruct T0 as (W & RR & (WR & WF & PL) & ID). cbn [root] in *. unfold p_set. apply insert_over; auto. rewrite WR. lia. }
  change None with (if false then Some (nid n) else None). revert OV. generalize false.
  generalize (p_set grow (nid (root t0)) (replace_byte 32 45 (full hd p)) v). intros q b OV.
  induction OV as [b c s k E _ IH|b r i c k E _ IH|b s y k E Y _ IH|x]; cbn [seqp].
  - apply pe_node with s; auto.
  - apply pe_elem with c; auto.
  - apply pe_type with s; auto; [destruct b; auto|]. intros t m h s' RL Es'. now apply (rel_clean t m h _ n s' RL Hn).
  - pose proof (sub_repr _ _ _ (proj1 (proj2 T0)) (HeapRemoveProofs.ents_sub _ _ _ _ Hn)) as Rn. apply repr_eq in Rn.
    destruct Rn as [(s0 & Es0 & _) _]. apply pe_data with s0; [exact Es0|]. intros t m h s RL Es B. now apply set_effect.
Qed.

(** ** Get *)
Lemma reads_pend2 {A B} o b (x : A) p (q : A -> prog B) k : reads h0 x p -> pend o b (seqp (q x) k) -> pend o b (seqp (seqp p q) k).
Proof.
  intros R C. induction R as [|c s f E _ IH|r i c f E _ IH]; cbn [seqp]; auto.
  - apply pe_node with s; auto. intros n AL. apply IH, AL.
  - apply pe_elem with c; auto.
Qed.
(** Query after its search *)
Definition after_search (hd : hdl) (r : hsres) : prog qres :=
  match hs_node r, hs_partial r with
  | Some a, false =>
      GetN a (fun n1 =>
      let branch := isBranch (view a n1) in
      let* found := (if branch then GetN a (fun n2 => Ret (endsWith (view a n2) (hdelim hd))) else Ret true) in
      GetN a (fun n3 =>
      if hasData (view a n3) then GetN a (fun n4 => Ret (QRes (hdata n4) branch found (hs_kv r)))
      else Ret (QRes GNil branch found (hs_kv r))))
  | _, _ => Ret (QRes GNil false false (hs_kv r))
  end.
Lemma query_parts hd p : p_query (S rf) dep hd (nid (root t0)) p =
  seqp (p_search (S rf) dep hd (nid (root t0)) (full hd p)) (after_search hd).
Proof. reflexivity. Qed.
Lemma has_bit a n : hasData (view a n) = false -> N.lor (htype n) NTData = htype n -> False.
Proof.
  unfold hasData, view. cbn [ntype]. intros H E. rewrite <- E, N.land_lor_distr_l in H. cbn in H. apply negb_false_iff, N.eqb_eq in H.
  apply N.lor_eq_0_iff in H. destruct H. discriminate.
Qed.
Lemma get_pend hd p : admissible (DoGet hd p) ->
  pend (DoGet hd p) None (code grow (S rf) dep (nid (root t0)) (DoGet hd p)).
Proof.
  cbn [admissible]. intros Hd. destruct (plain_reach_search D rf hd t0 (full hd p) P0 Hd) as (r & E & _).
  assert (E' : search (S rf) hd (Tr (root t0) (next t0)) (full hd p) = Ok r) by (clear -E; destruct t0; exact E).
  pose proof (search_reads h0 (proj1 T0) (S rf) hd (root t0) (next t0) dep (full hd p) r (proj1 (proj2 T0)) DP E') as SR.
  assert (AN : forall t m h, rel t m h -> exists q, Query (S rf) hd t p = Ok q /\ run (after_search hd (sids r)) m = Ok (m, q)).
  { intros t m h RL. destruct (plain_reach_search D rf hd t (full hd p) (rl_reach _ _ _ RL) Hd) as (r' & Er & _).
    exists (query_of (hdelim hd) r'). assert (EQ : Query (S rf) hd t p = Ok (query_of (hdelim hd) r')) by (unfold Query; now rewrite Er).
    split; [exact EQ|]. destruct (rl_tree _ _ _ RL) as (W & RR & _).
    assert (X : run (p_query (S rf) dep hd (nid (root t)) p) m = Ok (m, query_of (hdelim hd) r')).
    { apply query_run with (nx := next t); auto; [apply (rel_depth _ _ _ RL)|]. destruct t. exact EQ. }
    rewrite (rl_root _ _ _ RL), query_parts, run_seq, (reads_any h0 _ _ m SR (rl_kept _ _ _ RL)) in X. exact X. }
  cbn [code]. rewrite query_parts. apply reads_pend2 with (sids r); [exact SR|].
  unfold after_search in *. unfold sids in *. cbn [hs_node hs_partial hs_kv] in *.
  destruct (Trie.s_node r) as [n|] eqn:N; cbn [option_map] in *.
  2: { apply pe_ret. intros t m h RL. destruct (AN t m h RL) as (q & Q & X). cbn [run] in X. injection X as <-. split; eauto. }
  destruct (Trie.s_partial r).
  { apply pe_ret. intros t m h RL. destruct (AN t m h RL) as (q & Q & X). cbn [run] in X. injection X as <-. split; eauto. }
  destruct (search_in _ _ _ _ _ E n N) as (k & Hn & _).
  pose proof (sub_repr _ _ _ (proj1 (proj2 T0)) (HeapRemoveProofs.ents_sub _ _ _ _ Hn)) as Rn. apply repr_eq in Rn.
  destruct Rn as [(s & Es & Ft & _) _].
  assert (EN : forall u w, same s u -> same s w -> endsWith (view (nid n) u) (hdelim hd) = endsWith (view (nid n) w) (hdelim hd))
    by (intros u w (U & _) (V & _); unfold endsWith, view; cbn; now rewrite U, V).
  (* what Query gives, read from the memory the tree is in *)
  assert (QV : forall t m h, rel t m h -> exists sm, hn m (nid n) = Some sm /\ kin s sm /\
     Query (S rf) hd t p = Ok (QRes (if hasData (view (nid n) sm) then hdata sm else GNil) (isBranch (view (nid n) s))
       (if isBranch (view (nid n) s) then endsWith (view (nid n) s) (hdelim hd) else true) (Trie.s_kv r))).
  { intros t m h RL. destruct (AN t m h RL) as (q & Q & X). destruct (kp_node _ _ (rl_kept _ _ _ RL) _ _ Es) as (sm & Em & AL).
    exists sm. split; [exact Em|]. split; [exact AL|]. rewrite Q. f_equal. cbn [run] in X. rewrite Em in X.
    rewrite (kin_branch _ (nid n) s sm AL) in X. destruct (isBranch (view (nid n) s)); cbn [seqp run] in X; rewrite ?Em in X.
    - rewrite (EN sm s (proj1 AL) (proj1 (kin_refl s))) in X. destruct (hasData _); cbn [run] in X; rewrite ?Em in X; injection X as <-; reflexivity.
    - destruct (hasData _); cbn [run] in X; rewrite ?Em in X; injection X as <-; reflexivity. }
  clear AN. cbn [seqp]. apply pe_node with s; [exact Es|]. intros n1 A1. rewrite (kin_branch _ (nid n) s n1 A1).
  apply reads_pend2 with (if isBranch (view (nid n) s) then endsWith (view (nid n) s) (hdelim hd) else true).
  { destruct (isBranch (view (nid n) s)); [|constructor]. apply reads_node with s; [exact Es|]. intros n2 A2.
    rewrite (EN n2 s A2 (proj1 (kin_refl s))). constructor. }
  cbn [seqp]. apply pe_here with (more := fun n3 => hasData (view (nid n) n3)) (s := s); [exact Es| |]; intros n3 A3 HD; rewrite HD; cbn [seqp].
  - apply pe_here with (more := fun _ => false) (s := s); [exact Es|discriminate|]. intros n4 A4 _. eexists. split; [reflexivity|].
    intros t m h RL Eh. destruct (QV t m h RL) as (sm & Em & AL & Q). cbn [does]. split; [reflexivity|]. eexists. split; [exact Q|].
    f_equal. f_equal. destruct (rel_clean t m h k n sm RL Hn Em) as [C|C].
    + destruct (rl_sim _ _ _ RL (nid n)) as [X|(s' & X & Y & Z)].
      * assert (n4 = sm) as -> by congruence. rewrite C. destruct (hasData (view (nid n) sm)); reflexivity.
      * rewrite Eh in Y. injection Y as ->. assert (s' = sm) as -> by congruence. cbn. rewrite C. destruct (hasData (view (nid n) sm)); reflexivity.
    + destruct (hasData (view (nid n) sm)) eqn:H2; [|exfalso; now apply (has_bit (nid n) sm)].
      destruct (rl_sim _ _ _ RL (nid n)) as [X|(s' & X & Y & Z)]; [congruence|].
      rewrite Eh in Y. injection Y as ->. assert (s' = sm) as -> by congruence. reflexivity.
  - eexists. split; [reflexivity|]. intros t m h RL Eh. destruct (QV t m h RL) as (sm & Em & AL & Q).
    cbn [does]. split; [reflexivity|]. eexists. split; [exact Q|]. f_equal. f_equal.
    destruct (rl_sim _ _ _ RL (nid n)) as [X|(s' & X & Y & Z)].
    + assert (sm = n3) as -> by congruence. now rewrite HD.
    + exfalso. apply (has_bit (nid n) n3 HD). rewrite Eh in Y. injection Y as ->. cbn. apply lor_idem.
Qed.

(** ** the other calls that read *)
(** what search finds stays the same *)
Lemma find_same hd w : D (hdelim hd) -> exists r, reads h0 (sids r) (p_search (S rf) dep hd (nid (root t0)) w) /\
  (forall n, Trie.s_node r = Some n -> exists s, hn h0 (nid n) = Some s) /\
  forall t m h, rel t m h -> exists r', search (S rf) hd t w = Ok r' /\ sids r' = sids r /\
    forall n', Trie.s_node r' = Some n' -> sub (root t) n'.
Proof.
  intros Hd. destruct (plain_reach_search D rf hd t0 w P0 Hd) as (r & E & _).
  assert (E' : search (S rf) hd (Tr (root t0) (next t0)) w = Ok r) by (clear -E; destruct t0; exact E).
  pose proof (search_reads h0 (proj1 T0) (S rf) hd (root t0) (next t0) dep w r (proj1 (proj2 T0)) DP E') as SR.
  exists r. split; [exact SR|]. split.
  { intros n N. pose proof (sub_repr _ _ _ (proj1 (proj2 T0)) (search_child _ _ _ _ _ _ _ E' N)) as Rn. apply repr_eq in Rn.
    destruct Rn as [(s & Es & _) _]. eauto. }
  intros t m h RL. destruct (plain_reach_search D rf hd t w (rl_reach _ _ _ RL) Hd) as (r' & Er & _).
  assert (Er' : search (S rf) hd (Tr (root t) (next t)) w = Ok r') by (clear -Er; destruct t; exact Er).
  exists r'. split; [exact Er|]. destruct (rl_tree _ _ _ RL) as (W & RR & _). split.
  - pose proof (search_run m (S rf) hd (root t) (next t) dep w r' W RR (rel_depth _ _ _ RL) Er') as X.
    rewrite (rl_root _ _ _ RL), (reads_any h0 _ _ m SR (rl_kept _ _ _ RL)) in X.
    apply (f_equal (fun z => match z with Ok (_, y) => y | _ => sids r end)) in X. now symmetry.
  - intros n' N. apply (search_child _ _ _ _ _ _ _ Er' N).
Qed.
Lemma found_sids r : s_found r = match hs_node (sids r) with Some _ => negb (hs_partial (sids r)) | None => false end.
Proof. unfold s_found, sids. cbn. now destruct (Trie.s_node r). Qed.
Lemma has_pend hd p : admissible (DoHas hd p) -> pend (DoHas hd p) None (code grow (S rf) dep (nid (root t0)) (DoHas hd p)).
Proof.
  cbn [admissible]. intros Hd. destruct (find_same hd (full hd p) Hd) as (r & SR & _ & FS).
  cbn [code]. unfold p_has. eapply reads_pend2; [exact SR|]. cbn [seqp]. apply pe_ret. intros t m h RL.
  destruct (FS t m h RL) as (r' & Er & EQ & _). cbn [does]. split; [reflexivity|]. unfold Has. rewrite Er. cbn [bind].
  eexists. split; [reflexivity|]. f_equal. rewrite found_sids, EQ. reflexivity.
Qed.
(** the node that is found, in memory and in the tree *)
Lemma node_fits t m h n' : rel t m h -> sub (root t) n' -> exists sm, hn m (nid n') = Some sm /\ fits n' sm.
Proof.
  intros RL SB. pose proof (sub_repr _ _ _ (proj1 (proj2 (rl_tree _ _ _ RL))) SB) as Rn. apply repr_eq in Rn.
  destruct Rn as [(sm & Em & Ft & _) _]. eauto.
Qed.
Lemma hasPart_pend hd p : admissible (DoHasPart hd p) ->
  pend (DoHasPart hd p) None (code grow (S rf) dep (nid (root t0)) (DoHasPart hd p)).
Proof.
  cbn [admissible]. intros Hd. destruct (find_same hd (full hd p) Hd) as (r & SR & HN0 & FS).
  cbn [code]. unfold p_hasPart. eapply reads_pend2; [exact SR|]. destruct (Trie.s_node r) as [n|] eqn:N.
  - destruct (HN0 n eq_refl) as (s & Es).
    assert (ID : forall t m h, rel t m h -> exists n', HasPart (S rf) hd t p = Ok (if Trie.s_partial r then has_prefix (full hd p) (npathS n') else true) /\
      nid n' = nid n /\ sub (root t) n').
    { intros t m h RL. destruct (FS t m h RL) as (r' & Er & EQ & SB). unfold HasPart. rewrite Er. cbn [bind].
      unfold sids in EQ. rewrite N in EQ. injection EQ as E1 _ E3 _. destruct (Trie.s_node r') as [n'|]; [|discriminate].
      exists n'. rewrite E3. split; [reflexivity|]. split; [now injection E1|now apply SB]. }
    unfold sids. cbn [hs_node hs_partial]. rewrite N. cbn [option_map]. destruct (Trie.s_partial r); cbn [seqp].
    + apply pe_node with s; [exact Es|]. intros n1 A1. apply pe_ret. intros t m h RL. cbn [does]. split; [reflexivity|].
      destruct (ID t m h RL) as (n' & -> & I & SB). eexists. split; [reflexivity|]. f_equal. f_equal.
      destruct (node_fits t m h n' RL SB) as (sm & Em & Ft). rewrite I in Em.
      destruct (kp_node _ _ (rl_kept _ _ _ RL) _ _ Es) as (sm' & Em' & (A2 & _)). assert (sm' = sm) as -> by congruence.
      destruct Ft as (_ & P2 & _). destruct A1 as ((_ & B1 & _) & _). destruct A2 as (_ & B2 & _). congruence.
    + apply pe_ret. intros t m h RL. cbn [does]. split; [reflexivity|]. destruct (ID t m h RL) as (n' & -> & _). eauto.
  - unfold sids. rewrite N. cbn [hs_node hs_partial option_map seqp]. apply pe_ret. intros t m h RL. cbn [does]. split; [reflexivity|].
    destruct (FS t m h RL) as (r' & Er & EQ & _). unfold HasPart. rewrite Er. cbn [bind]. unfold sids in EQ. rewrite N in EQ.
    injection EQ as E1 _ E3 _. destruct (Trie.s_node r') as [n'|]; [discriminate|]. rewrite E3. eauto.
Qed.
(** GetDesc, GetComment, GetTag *)
Definition attr_at (x : attrib) (n : node) : gval := match x with Desc => GStr (ndesc n) | Comm => GStr (ncmt n) | Tag => ntag n end.
Lemma attr_does t x hd p o : getNodeFast (S rf) hd t p = Ok o ->
  does (S rf) t (DoAttr x hd p) t (match o with Some n => Is (attr_at x n) true | None => Is (attr_nil x) false end).
Proof.
  intros E. destruct x; cbn [does]; (split; [reflexivity|]); unfold GetDesc, GetComment, GetTag; rewrite E; cbn [bind];
    destruct o; cbn; eauto.
Qed.
Lemma attr_pend x hd p : admissible (DoAttr x hd p) ->
  pend (DoAttr x hd p) None (code grow (S rf) dep (nid (root t0)) (DoAttr x hd p)).
Proof.
  cbn [admissible]. intros Hd. destruct (find_same hd (full hd p) Hd) as (r & SR & HN0 & FS).
  cbn [code]. unfold p_attr. eapply reads_pend2; [exact SR|]. unfold sids at 1. cbn [hs_node]. unfold sids at 1. cbn [hs_partial].
  assert (NO : forall t m h, rel t m h -> (Trie.s_node r = None \/ Trie.s_partial r = true) -> getNodeFast (S rf) hd t p = Ok None).
  { intros t m h RL NN. destruct (FS t m h RL) as (r' & Er & EQ & _). unfold getNodeFast. rewrite Er. cbn [bind].
    unfold sids in EQ. injection EQ as E1 _ E3 _. rewrite E3. destruct NN as [NN|NN]; rewrite NN in *; cbn in E1.
    - now destruct (Trie.s_node r').
    - now destruct (Trie.s_node r'). }
  destruct (Trie.s_node r) as [n|] eqn:N; cbn [option_map].
  2: { cbn [seqp]. apply pe_ret. intros t m h RL. apply (attr_does t x hd p None). apply (NO t m h RL). now left. }
  destruct (Trie.s_partial r) eqn:PT.
  { cbn [seqp]. apply pe_ret. intros t m h RL. apply (attr_does t x hd p None). apply (NO t m h RL). now right. }
  clear NO. destruct (HN0 n eq_refl) as (s & Es).
  assert (BR : forall t m h, rel t m h -> exists n' sm, hn m (nid n) = Some sm /\ fits n' sm /\ kin s sm /\ getNodeFast (S rf) hd t p =
    Ok (if isBranch (view (nid n) s) then if endsWith (view (nid n) s) (hdelim hd) then Some n' else None else Some n')).
  { intros t m h RL. destruct (FS t m h RL) as (r' & Er & EQ & SB). unfold sids in EQ. rewrite N, PT in EQ. injection EQ as E1 _ E3 _.
    destruct (Trie.s_node r') as [n'|] eqn:N'; [|discriminate]. injection E1 as E1.
    destruct (node_fits t m h n' RL (SB n' eq_refl)) as (sm & Em & Ft). rewrite E1 in Em.
    destruct (kp_node _ _ (rl_kept _ _ _ RL) _ _ Es) as (sm' & Em' & A2). assert (sm' = sm) as -> by congruence.
    exists n', sm. split; [exact Em|]. split; [exact Ft|]. split; [exact A2|]. unfold getNodeFast. rewrite Er. cbn [bind]. rewrite N', E3.
    rewrite <- (kin_branch (nid n) (nid n) s sm A2). destruct Ft as (P1 & _ & _ & _ & _ & _ & P7).
    replace (isBranch (view (nid n) sm)) with (isBranch n') by (unfold isBranch, view; cbn; now rewrite P7).
    replace (endsWith (view (nid n) s) (hdelim hd)) with (endsWith n' (hdelim hd)); [reflexivity|].
    unfold endsWith, view. cbn. destruct A2 as ((A2 & _) & _). now rewrite <- P1, A2. }
  cbn [seqp]. apply pe_node with s; [exact Es|]. intros n1 A1. rewrite (kin_branch _ (nid n) s n1 A1).
  apply reads_pend2 with (if isBranch (view (nid n) s) then endsWith (view (nid n) s) (hdelim hd) else true).
  { destruct (isBranch (view (nid n) s)); [|constructor]. apply reads_node with s; [exact Es|]. intros n2 (A2 & _).
    replace (endsWith (view (nid n) n2) (hdelim hd)) with (endsWith (view (nid n) s) (hdelim hd)); [constructor|].
    unfold endsWith, view. cbn. now rewrite A2. }
  destruct (if isBranch (view (nid n) s) then endsWith (view (nid n) s) (hdelim hd) else true) eqn:FO; cbn [seqp].
  - apply pe_here with (more := fun _ => false) (s := s); [exact Es|discriminate|]. intros n3 A3 _. eexists. split; [reflexivity|].
    intros t m h RL Eh. destruct (BR t m h RL) as (n' & sm & Em & Ft & _ & G).
    replace (if isBranch (view (nid n) s) then if endsWith (view (nid n) s) (hdelim hd) then Some n' else None else Some n') with (Some n') in G
      by (destruct (isBranch _); [destruct (endsWith _ _)|]; congruence).
    pose proof (attr_does t x hd p (Some n') G) as AD. cbn [fst snd].
    replace (attr_in x n3) with (attr_at x n'); [exact AD|].
    assert (SA : hdesc n3 = hdesc sm /\ hcmt n3 = hcmt sm /\ htag n3 = htag sm).
    { destruct (rl_sim _ _ _ RL (nid n)) as [X|(s' & X & Y & _)].
      - assert (n3 = sm) as -> by congruence. auto.
      - assert (s' = sm) as -> by congruence. rewrite Eh in Y. injection Y as ->. auto. }
    destruct SA as (S1 & S2 & S3). destruct Ft as (_ & _ & _ & P4 & P5 & P6 & _).
    unfold attr_at, attr_in. destruct x; congruence.
  - apply pe_ret. intros t m h RL. destruct (BR t m h RL) as (n' & sm & Em & Ft & _ & G).
    apply (attr_does t x hd p None). rewrite G. destruct (isBranch _); [rewrite FO; reflexivity|discriminate].
Qed.

(** ** SetTag *)
Lemma tag_pend hd p v : admissible (DoTag hd p v) -> pend (DoTag hd p v) None (code grow (S rf) dep (nid (root t0)) (DoTag hd p v)).
Proof.
  cbn [admissible]. intros Hd. destruct (find_same hd (full hd p) Hd) as (r & SR & HN0 & FS).
  cbn [code]. unfold p_tag. eapply reads_pend2; [exact SR|]. unfold sids. cbn [hs_node].
  destruct (Trie.s_node r) as [n|] eqn:N; cbn [option_map seqp].
  - destruct (HN0 n eq_refl) as (s & Es). apply pe_tag with s; [exact Es|]. intros t m h sm RL Em.
    destruct (FS t m h RL) as (r' & Er & EQ & SB). unfold sids in EQ. rewrite N in EQ. injection EQ as E1 _ _ _.
    destruct (Trie.s_node r') as [n'|] eqn:N'; [|discriminate]. injection E1 as E1. specialize (SB n' eq_refl).
    pose (t' := Tr (upd (nid n) (setTag v) (root t)) (next t)).
    assert (ST : SetTag (S rf) hd t p v = Ok (t', true)) by (unfold SetTag; rewrite Er; cbn [bind]; rewrite N', E1; reflexivity).
    assert (PR : plain_reach D t').
    { apply plain_more with (rf := rf) (h := hd) (o := OSetTag p v) (t := t) (r := RBool true); auto; [apply (rl_reach _ _ _ RL)|easy|].
      cbn [t_step]. now rewrite ST. }
    destruct (rl_tree _ _ _ RL) as (W & RR & _). apply sub_in in SB. rewrite E1 in SB.
    destruct (attr_spec (w_tag v) (setTag v) (nid n) m (root t) (set_tag_acts v) W RR SB) as (m' & RUN & W' & NN & R' & _).
    cbn [run] in RUN. rewrite Em in RUN. injection RUN as <-.
    exists t', (set_node m (nid n) (w_tag v sm)). split; [cbn [does]; eauto|]. split.
    { split; [exact W'|]. split; [exact R'|]. destruct (plain_reach_inv D t' PR) as [WT _]. cbn [nn set_node].
      rewrite <- (rl_next _ _ _ RL). exact WT. }
    split; [apply (rl_next _ _ _ RL)|]. split; [exact PR|]. split; [|apply changed_set].
    unfold t'. cbn [root]. rewrite upd_nid by reflexivity. apply (rl_root _ _ _ RL).
  - apply pe_ret. intros t m h RL. cbn [does]. exists false. split; [|reflexivity].
    destruct (FS t m h RL) as (r' & Er & EQ & _). unfold SetTag. rewrite Er. cbn [bind]. unfold sids in EQ. rewrite N in EQ.
    injection EQ as E1 _ _ _. now destruct (Trie.s_node r').
Qed.
Lemma code_pend o : admissible o -> pend o None (code grow (S rf) dep (nid (root t0)) o).
Proof. destruct o; [apply get_pend|apply has_pend|apply hasPart_pend|apply attr_pend|apply set_pend|apply tag_pend|easy..]. Qed.

(** ** all threads *)
Definition trel (h : heap) (th : thr) (s : status) (b : option nat) : Prop :=
  Forall admissible (todo th) /\
  match cur th, s with
  | None, Idle => b = None
  | Some p, Called o => pend o b p /\ forall c, b = Some c -> bit h c
  | Some p, Answered x => p = Ret x /\ b = None
  | _, _ => False
  end.
Definition inv (ts : list thr) (ss : list status) (t : tr) (h : heap) : Prop :=
  exists m bs, rel t m h /\ (forall a, hn h a = hn m a \/ In (Some a) bs) /\
    length ss = length ts /\ length bs = length ts /\
    forall i th, nth_error ts i = Some th -> exists s b, nth_error ss i = Some s /\ nth_error bs i = Some b /\ trel h th s b.

Lemma put_len {A} (l : list A) i x : length (put l i x) = length l.
Proof. revert i. induction l as [|a l IH]; intros [|i]; cbn; auto. Qed.
Lemma put_id {A} (l : list A) i x : nth_error l i = Some x -> put l i x = l.
Proof. revert i. induction l as [|a l IH]; intros [|i] E; cbn in *; try discriminate; [congruence|]. now rewrite IH. Qed.
(** thread [i] goes on; the bits that are set stay *)
Lemma inv_step ts ss t m bs h i th th' s' b' h' t' m' :
  rel t m h -> length ss = length ts -> length bs = length ts ->
  (forall j tj, nth_error ts j = Some tj -> exists s b, nth_error ss j = Some s /\ nth_error bs j = Some b /\ trel h tj s b) ->
  nth_error ts i = Some th -> (forall c, bit h c -> bit h' c) -> rel t' m' h' -> trel h' th' s' b' ->
  (forall a, hn h' a = hn m' a \/ In (Some a) (put bs i b')) ->
  inv (put ts i th') (put ss i s') t' h'.
Proof.
  intros RL L1 L2 TH Ei BT RL' TR D'. exists m', (put bs i b'). split; [exact RL'|]. split; [exact D'|]. rewrite !put_len.
  split; [exact L1|]. split; [exact L2|].
  assert (Li : i < length ts) by (apply nth_error_Some; congruence).
  intros j tj Ej. destruct (Nat.eq_dec i j) as [<-|NE].
  - rewrite put_same in Ej by exact Li. injection Ej as <-. exists s', b'. rewrite !put_same by lia. auto.
  - rewrite put_other in Ej by exact NE. destruct (TH j tj Ej) as (s & b & Es & Eb & T1 & T2).
    exists s, b. rewrite !put_other by exact NE. split; [exact Es|]. split; [exact Eb|]. split; [exact T1|].
    destruct (cur tj), s; auto. destruct T2. split; auto.
Qed.
Lemma in_put {A} (l : list A) i x b y : nth_error l i = Some b -> In y l -> y = b \/ In y (put l i x).
Proof.
  revert i. induction l as [|a l IH]; intros [|i] E H; cbn in *; try easy.
  - injection E as ->. destruct H; auto.
  - destruct H as [->|H]; auto. destruct (IH _ E H); auto.
Qed.
Lemma in_put_same {A} (l : list A) i x y : nth_error l i = Some x -> In y l -> In y (put l i x).
Proof. intros E. now rewrite put_id. Qed.

Lemma stir_inv ts ss t h i : inv ts ss t h ->
  let '(ts', h', es) := stir grow (S rf) dep (nid (root t0)) ts h i in
  exists t' ss', atomic (S rf) t ss es t' ss' /\ inv ts' ss' t' h'.
Proof.
  intros I. unfold stir. destruct (nth_error ts i) as [[p os]|] eqn:Ei; [|exists t, ss; split; [constructor|exact I]].
  pose proof I as (m & bs & RL & DF & L1 & L2 & TH). destruct (TH i _ Ei) as (s & b & Es & Eb & AD & TR). cbn [cur todo] in *.
  destruct p as [p|].
  2: { destruct os as [|o os]; [exists t, ss; split; [constructor|exact I]|]. destruct s; try easy. subst b.
       inversion AD as [|? ? A1 A2]; subst. exists t, (put ss i (Called o)). split; [apply at_call; [exact Es|constructor]|].
       eapply inv_step with (m := m) (m' := m) (b' := None) (h := h); eauto.
       - split; [exact A2|]. cbn [cur]. split; [now apply code_pend|discriminate].
       - intros a. rewrite put_id by exact Eb. apply DF. }
  destruct s as [|o|x]; try easy.
  2: { destruct TR as [-> ->]. exists t, (put ss i Idle). split; [apply at_reply; [exact Es|constructor]|].
       eapply inv_step with (m := m) (m' := m) (b' := None) (h := h); eauto.
       - split; [exact AD|reflexivity].
       - intros a. rewrite put_id by exact Eb. apply DF. }
  destruct TR as [PE BI].
  (* a step of the program before the operation takes effect *)
  assert (GO : forall p' h' b', rel t m h' -> (forall c, bit h c -> bit h' c) -> pend o b' p' -> (forall c, b' = Some c -> bit h' c) ->
     (forall a, hn h' a = hn m a \/ In (Some a) (put bs i b')) ->
     exists t' ss', atomic (S rf) t ss [] t' ss' /\ inv (put ts i (Th (Some p') os)) ss' t' h').
  { intros p' h' b' RL' MO PE' BI' DF'. exists t, (put ss i (Called o)). rewrite (put_id ss) by exact Es. split; [constructor|].
    rewrite <- (put_id ss i (Called o) Es). eapply inv_step with (m := m) (m' := m) (b' := b') (h := h); eauto. split; [exact AD|]. cbn [cur]. auto. }
  (* the step in which it takes effect *)
  assert (ACT : forall x h' t' m', does (S rf) t o t' x -> rel t' m' h' -> (forall c, bit h c -> bit h' c) ->
     (forall a, hn h' a = hn m' a \/ In (Some a) (put bs i None)) ->
     exists t' ss', atomic (S rf) t ss [] t' ss' /\ inv (put ts i (Th (Some (Ret x)) os)) ss' t' h').
  { intros x h' t' m' DO RL' MO DF'. exists t', (put ss i (Answered x)).
    split; [apply at_act with (i := i) (o := o) (t1 := t') (x := x); auto; constructor|].
    eapply inv_step with (m := m) (m' := m') (b' := None) (h := h); eauto. split; [exact AD|]. cbn [cur]. auto. }
  pose proof (rel_kept _ _ _ RL) as ST.
  destruct PE as [b c s k E H|more c s k E H H'|b r j c k E H|b c s y k E Y BC CL H|c s0 v x E H|c s0 v x E H|x H].
  - destruct (kp_node _ _ ST _ _ E) as (n & En & AL). cbn [access]. rewrite En. apply (GO _ _ b); auto.
    intros a. rewrite put_id by exact Eb. apply DF.
  - destruct (kp_node _ _ ST _ _ E) as (n & En & AL). cbn [access]. rewrite En.
    destruct (more n) eqn:MN; [|destruct (H' n AL MN) as (x & -> & DO)].
    + apply (GO _ _ None); auto. intros a. rewrite put_id by exact Eb. apply DF.
    + apply (ACT _ _ t m); auto; [eauto|]. intros a. rewrite put_id by exact Eb. apply DF.
  - cbn [access]. rewrite (kp_arr _ _ ST), E. apply (GO _ _ b); auto. intros a. rewrite put_id by exact Eb. apply DF.
  - destruct (kp_node _ _ ST _ _ E) as (n & En & AL). cbn [access]. rewrite En.
    assert (Y' : y = N.lor (htype n) NTData).
    { rewrite Y. destruct AL as (_ & [->| ->]); auto. now rewrite lor_idem. }
    assert (Ib : In (Some c) (put bs i (Some c))).
    { apply nth_error_In with i. apply put_same. rewrite L2. apply nth_error_Some. congruence. }
    apply (GO _ _ (Some c)); auto.
    + destruct RL as [R1 R2 R3 R4 R5 R6 R7]. constructor; auto. intros a. cbn. destruct (Nat.eqb_spec a c) as [->|NE]; [|apply R7].
      destruct (R7 c) as [X|(sm & X & Z & V)].
      * rewrite En in X. destruct (CL t m h n) as [C|C]; [constructor; auto|congruence|right; exists n; rewrite Y'; auto|].
        left. rewrite <- X. rewrite Y'. now rewrite w_type_same.
      * rewrite En in Z. injection Z as ->. right. exists sm. split; [exact X|]. split; [|exact V]. rewrite Y'. cbn [htype w_type].
        rewrite lor_idem. reflexivity.
    + intros d (sd & Ed & Bd). unfold bit. cbn. destruct (Nat.eqb_spec d c) as [->|NE]; [|eauto]. eexists. split; [reflexivity|].
      cbn. rewrite Y'. apply lor_idem.
    + intros d Ed. injection Ed as <-. unfold bit. cbn. rewrite Nat.eqb_refl. eexists. split; [reflexivity|]. cbn. rewrite Y'. apply lor_idem.
    + intros a. cbn. destruct (Nat.eqb_spec a c) as [->|NE]; [auto|]. destruct (DF a) as [X|X]; [auto|].
      destruct (in_put bs i (Some c) b (Some a) Eb X) as [X'|X']; [|auto].
      right. subst b. destruct BC; congruence.
  - destruct (BI c eq_refl) as (n & En & B). destruct (H t m h n RL En B) as (t' & m' & DO & RL' & Hc & EL).
    cbn [access]. rewrite En. apply (ACT _ _ t' m'); auto.
    + intros d (sd & Ed & Bd). unfold bit. cbn. destruct (Nat.eqb_spec d c) as [->|NE]; [|eauto]. eexists. split; [reflexivity|]. exact B.
    + intros a. cbn. destruct (Nat.eqb_spec a c) as [->|NE]; [auto|]. rewrite EL by exact NE. destruct (DF a) as [X|X]; [auto|].
      destruct (in_put bs i None (Some c) (Some a) Eb X) as [X'|X']; [congruence|auto].
  - destruct (kp_node _ _ ST _ _ E) as (n & En & AL). cbn [access]. rewrite En.
    destruct (kp_node _ _ (rl_kept _ _ _ RL) _ _ E) as (sm & Em & ALm).
    destruct (H t m h sm RL Em) as (t' & m' & DO & T' & N' & PR & RT & CH). pose proof CH as [C1 C2 (C3 & C4 & C5)].
    apply (ACT _ _ t' m'); auto.
    + destruct RL as [R1 R2 R3 R4 R5 (A1 & A2 & A3) R7]. constructor; auto.
      * apply changed_state with (2 := CH) (3 := Em); auto. unfold kin, same. cbn. auto.
      * cbn. repeat split; congruence.
      * intros a. cbn. destruct (Nat.eqb_spec a c) as [->|NE]; [|rewrite C2 by exact NE; apply R7].
        destruct (R7 c) as [X|(s' & X & Z & V)]; [left; congruence|right].
        assert (s' = sm) as -> by congruence. exists (w_tag v sm). split; [exact C1|]. split; [|exact V].
        rewrite En in Z. injection Z as ->. reflexivity.
    + intros d (sd & Ed & Bd). unfold bit. cbn. destruct (Nat.eqb_spec d c) as [->|NE]; [|eauto]. eexists. split; [reflexivity|].
      cbn. congruence.
    + intros a. rewrite put_id by exact Eb. cbn. destruct (Nat.eqb_spec a c) as [->|NE]; [|rewrite C2 by exact NE; apply DF].
      destruct (DF c) as [X|X]; [left; congruence|auto].
  - (* the program has ended, only the effect is left *)
    exists t, (put ss i Idle). split.
    + apply at_act with (i := i) (o := o) (t1 := t) (x := x); [exact Es|eauto|].
      apply at_reply; [apply put_same; rewrite L1; apply nth_error_Some; congruence|]. rewrite put_put. constructor.
    + eapply inv_step with (m := m) (m' := m) (b' := None) (h := h); eauto.
      * split; [exact AD|reflexivity].
      * intros a. rewrite put_id by exact Eb. apply DF.
Qed.
Lemma atomic_app f t ss e1 t1 ss1 e2 t2 ss2 : atomic f t ss e1 t1 ss1 -> atomic f t1 ss1 e2 t2 ss2 -> atomic f t ss (e1 ++ e2) t2 ss2.
Proof.
  intros A B. induction A as [t ss|t ss i o es t' ss' E _ IH|t ss i o t1 x es t' ss' E DO _ IH|t ss i x es t' ss' E _ IH]; cbn; auto.
  - apply at_call; auto.
  - apply at_act with i o t1 x; auto.
  - apply at_reply; auto.
Qed.
Lemma play_inv sch : forall ts ss t h, inv ts ss t h ->
  let '(ts', h', es) := play grow (S rf) dep (nid (root t0)) sch ts h in
  exists t' ss', atomic (S rf) t ss es t' ss' /\ inv ts' ss' t' h'.
Proof.
  induction sch as [|i sch IH]; intros ts ss t h I; cbn [play]; [exists t, ss; split; [constructor|exact I]|].
  pose proof (stir_inv ts ss t h i I) as SI. destruct (stir _ _ _ _ ts h i) as [[ts1 h1] e1]. destruct SI as (t1 & ss1 & A1 & I1).
  specialize (IH ts1 ss1 t1 h1 I1). destruct (play _ _ _ _ sch ts1 h1) as [[ts2 h2] e2]. destruct IH as (t2 & ss2 & A2 & I2).
  exists t2, ss2. split; [|exact I2]. now apply atomic_app with t1 ss1.
Qed.

(** ** at the start, and when nothing is pending *)
Lemma start_inv jobs : next t0 = nn h0 -> (forall os o, In os jobs -> In o os -> admissible o) ->
  inv (map (Th None) jobs) (repeat Idle (length jobs)) t0 h0.
Proof.
  intros NX AD. exists h0, (repeat None (length jobs)). split.
  { constructor; auto. apply kept_refl. }
  split; [auto|]. rewrite map_length, !repeat_length. split; [reflexivity|]. split; [reflexivity|].
  intros i th E. assert (L : i < length jobs) by (rewrite <- (map_length (Th None)); apply nth_error_Some; congruence).
  exists Idle, None. rewrite !nth_error_repeat by exact L. repeat split; auto; rewrite nth_error_map in E;
    destruct (nth_error jobs i) as [os|] eqn:Ej; try discriminate; injection E as <-; cbn; auto.
  apply Forall_forall. intros o Ho. apply AD with os; auto. now apply nth_error_In with i.
Qed.
Lemma inv_end ts ss t h : inv ts ss t h -> (forall th, In th ts -> cur th = None) -> tree_in h (root t) /\ next t = nn h.
Proof.
  intros (m & bs & RL & DF & L1 & L2 & TH) Q.
  assert (EQ : forall a, hn h a = hn m a).
  { intros a. destruct (DF a) as [X|X]; auto. exfalso. apply In_nth_error in X. destruct X as [i Ei].
    destruct (nth_error ts i) as [th|] eqn:Et.
    - destruct (TH i th Et) as (s & b & _ & Eb & _ & TR). rewrite (Q th (nth_error_In _ _ Et)) in TR. destruct s; try easy. congruence.
    - apply nth_error_None in Et. assert (i < length bs) by (apply nth_error_Some; congruence). lia. }
  destruct (rl_arr _ _ _ RL) as (A1 & A2 & A3). destruct (rl_tree _ _ _ RL) as ([W1 W2 W3] & RR & WT).
  split; [|rewrite A2; apply (rl_next _ _ _ RL)]. split; [|split].
  - constructor.
    + intros a s. rewrite EQ, A1, A2, A3. apply W1.
    + intros a b s u. rewrite !EQ. apply W2.
    + now rewrite A1, A3.
  - apply repr_frame with (h := m) (P := fun _ => False); auto. intros a s E _. rewrite EQ. split; [exact E|]. unfold kids_of. now rewrite A1.
  - now rewrite A2.
Qed.
Lemma inv_sound ts ss t h th : inv ts ss t h -> In th ts -> cur th <> Some Die /\ cur th <> Some Spin.
Proof.
  intros (m & bs & _ & _ & _ & _ & TH) Hin. apply In_nth_error in Hin. destruct Hin as [i Ei].
  destruct (TH i th Ei) as (s & b & _ & _ & _ & TR). destruct (cur th) as [p|]; [|split; discriminate].
  destruct s; try easy.
  - destruct TR as [PE _]. split; intros X; injection X as ->; inversion PE.
  - destruct TR as [-> _]. split; discriminate.
Qed.
Theorem linearizable jobs sch : next t0 = nn h0 -> (forall os o, In os jobs -> In o os -> admissible o) ->
  let '(ts, h, es) := play grow (S rf) dep (nid (root t0)) sch (map (Th None) jobs) h0 in
  (forall th, In th ts -> cur th <> Some Die /\ cur th <> Some Spin) /\
  exists t ss, atomic (S rf) t0 (repeat Idle (length jobs)) es t ss /\
    ((forall th, In th ts -> cur th = None) -> tree_in h (root t) /\ next t = nn h).
Proof.
  intros NX AD. pose proof (play_inv sch _ _ _ _ (start_inv jobs NX AD)) as PI.
  destruct (play _ _ _ _ sch _ h0) as [[ts h] es]. destruct PI as (t & ss & A & I). split.
  - intros th. now apply inv_sound with ss t h.
  - exists t, ss. split; [exact A|]. now apply inv_end with ss.
Qed.

(** ** every call ends after finitely many steps of its own *)
Section Wait.
Variables (f : nat -> nat) (i : nat).
Hypothesis FAIR : forall n, exists k, n <= k /\ f k = i.
Variables (ts0 : list thr).
Hypothesis I0 : inv ts0 (repeat Idle (length ts0)) t0 h0.
Definition at_ (n : nat) : list thr * heap := fst (play grow (S rf) dep (nid (root t0)) (map f (seq 0 n)) ts0 h0).
Lemma play_app s1 : forall s2 ts h, fst (play grow (S rf) dep (nid (root t0)) (s1 ++ s2) ts h) =
  let '(ts1, h1, _) := play grow (S rf) dep (nid (root t0)) s1 ts h in fst (play grow (S rf) dep (nid (root t0)) s2 ts1 h1).
Proof.
  induction s1 as [|j s1 IH]; intros s2 ts h; cbn [app play]; [now destruct (play _ _ _ _ s2 ts h)|].
  destruct (stir _ _ _ _ ts h j) as [[ts1 h1] e1]. specialize (IH s2 ts1 h1).
  destruct (play _ _ _ _ (s1 ++ s2) ts1 h1) as [[a b] c]. destruct (play _ _ _ _ s1 ts1 h1) as [[a' b'] c']. exact IH.
Qed.
Lemma at_S n : at_ (S n) = fst (stir grow (S rf) dep (nid (root t0)) (fst (at_ n)) (snd (at_ n)) (f n)).
Proof.
  unfold at_. rewrite seq_S, map_app, play_app. cbn [map plus play].
  destruct (play _ _ _ _ (map f (seq 0 n)) ts0 h0) as [[ts1 h1] e1]. cbn [fst snd].
  destruct (stir _ _ _ _ ts1 h1 (f n)) as [[ts2 h2] e2]. reflexivity.
Qed.
Lemma at_inv n : exists ss t, inv (fst (at_ n)) ss t (snd (at_ n)).
Proof.
  pose proof (play_inv (map f (seq 0 n)) _ _ _ _ I0) as PI. unfold at_.
  destruct (play _ _ _ _ (map f (seq 0 n)) ts0 h0) as [[ts1 h1] e1]. destruct PI as (t & ss & _ & PI). eauto.
Qed.
Definition mine (n : nat) : option thr := nth_error (fst (at_ n)) i.
Lemma stir_other ts h j : j <> i -> nth_error (fst (fst (stir grow (S rf) dep (nid (root t0)) ts h j))) i = nth_error ts i.
Proof.
  intros NE. unfold stir. destruct (nth_error ts j) as [[[p|] os]|]; [|destruct os; cbn; auto; now apply put_other|auto].
  destruct p; cbn [access]; cbn [fst]; auto; try (now apply put_other).
  - destruct (hn h a); cbn [fst]; now apply put_other.
  - destruct (_ <? _); cbn [fst]; now apply put_other.
Qed.
Lemma next_turn n : exists k, n <= k /\ f k = i /\ mine k = mine n.
Proof.
  destruct (FAIR n) as (k & L & E). replace k with (n + (k - n)) in E by lia. revert E. generalize (k - n). clear k L.
  intros d. revert n. induction d as [|d IH]; intros n E.
  - exists n. rewrite Nat.add_0_r in E. auto.
  - destruct (Nat.eq_dec (f n) i) as [X|X]; [exists n; auto|].
    destruct (IH (S n)) as (k & L & Ek & M); [now rewrite Nat.add_succ_r in E|].
    exists k. split; [lia|]. split; [exact Ek|]. rewrite M. unfold mine. rewrite at_S. now apply stir_other.
Qed.
Lemma mine_step n th : f n = i -> mine n = Some th -> mine (S n) =
  nth_error (fst (fst (stir grow (S rf) dep (nid (root t0)) (fst (at_ n)) (snd (at_ n)) i))) i.
Proof. intros E _. unfold mine. now rewrite at_S, E. Qed.
Lemma mine_put n th th' : mine n = Some th -> nth_error (put (fst (at_ n)) i th') i = Some th'.
Proof. intros E. apply put_same. apply nth_error_Some. unfold mine in E. congruence. Qed.
Lemma at_state n : kept h0 (snd (at_ n)).
Proof. destruct (at_inv n) as (ss & t & m & bs & RL & _). now apply rel_kept with t m. Qed.
Lemma ret_ends x os n : mine n = Some (Th (Some (Ret x)) os) -> exists n', mine n' = Some (Th None os).
Proof.
  intros M. destruct (next_turn n) as (k & _ & Ek & Mk). rewrite M in Mk. exists (S k). rewrite (mine_step k _ Ek Mk).
  unfold stir. unfold mine in Mk. rewrite Mk. cbn [fst]. now apply (mine_put k _ _ Mk).
Qed.
Lemma pend_ends o b p os : pend o b p -> forall n, mine n = Some (Th (Some p) os) -> exists n', mine n' = Some (Th None os).
Proof.
  intros PE. induction PE as [b c s k E _ IH|more c s k E _ IH H'|b r j c k E _ IH|b c s y k E Y BC CL _ IH|c s0 v x E H|c s0 v x E H|x H]; intros n M;
    try (now apply ret_ends with x n); destruct (next_turn n) as (q & _ & Eq & Mq); rewrite M in Mq; pose proof (at_state q) as ST;
    pose proof (mine_step q _ Eq Mq) as MS; unfold stir in MS; unfold mine in Mq; rewrite Mq in MS; cbn [access] in MS.
  - destruct (kp_node _ _ ST _ _ E) as (u & Eu & AL). rewrite Eu in MS. cbn [fst] in MS. rewrite (mine_put q _ _ Mq) in MS.
    now apply (IH u AL (S q)).
  - destruct (kp_node _ _ ST _ _ E) as (u & Eu & AL). rewrite Eu in MS. cbn [fst] in MS. rewrite (mine_put q _ _ Mq) in MS.
    destruct (more u) eqn:MU; [now apply (IH u AL MU (S q))|]. destruct (H' u AL MU) as (x & Ex & _). rewrite Ex in MS.
    now apply ret_ends with x (S q).
  - rewrite (kp_arr _ _ ST), E in MS. cbn [fst] in MS. rewrite (mine_put q _ _ Mq) in MS. now apply (IH (S q)).
  - destruct (kp_node _ _ ST _ _ E) as (u & Eu & AL). rewrite Eu in MS. cbn [fst] in MS. rewrite (mine_put q _ _ Mq) in MS.
    now apply (IH (S q)).
  - destruct (kp_node _ _ ST _ _ E) as (u & Eu & AL). rewrite Eu in MS. cbn [fst] in MS. rewrite (mine_put q _ _ Mq) in MS.
    now apply ret_ends with x (S q).
  - destruct (kp_node _ _ ST _ _ E) as (u & Eu & AL). rewrite Eu in MS. cbn [fst] in MS. rewrite (mine_put q _ _ Mq) in MS.
    now apply ret_ends with x (S q).
Qed.
Lemma jobs_end os : Forall admissible os -> forall n, mine n = Some (Th None os) -> exists n', mine n' = Some (Th None []).
Proof.
  induction os as [|o os IH]; intros AD n M; [eauto|]. inversion AD as [|? ? A1 A2]; subst.
  destruct (next_turn n) as (q & _ & Eq & Mq). rewrite M in Mq.
  pose proof (mine_step q _ Eq Mq) as MS. unfold stir in MS. unfold mine in Mq. rewrite Mq in MS. cbn [fst] in MS.
  rewrite (mine_put q _ _ Mq) in MS. destruct (pend_ends o None _ os (code_pend o A1) (S q) MS) as (n' & M'). now apply (IH A2 n').
Qed.
End Wait.
Theorem wait_free jobs f i os : next t0 = nn h0 -> (forall os o, In os jobs -> In o os -> admissible o) ->
  (forall n, exists k, n <= k /\ f k = i) -> nth_error jobs i = Some os ->
  exists n, let '(ts, _, _) := play grow (S rf) dep (nid (root t0)) (map f (seq 0 n)) (map (Th None) jobs) h0 in
    nth_error ts i = Some (Th None []).
Proof.
  intros NX AD FAIR E. pose proof (start_inv jobs NX AD) as I. rewrite <- (map_length (Th None)) in I.
  assert (M0 : mine f i (map (Th None) jobs) 0 = Some (Th None os)).
  { unfold mine, at_. cbn. rewrite nth_error_map, E. reflexivity. }
  destruct (jobs_end f i FAIR _ I os) with (n := 0) as (n & M); auto.
  { apply Forall_forall. intros o Ho. apply AD with os; auto. now apply nth_error_In with i. }
  exists n. unfold mine, at_ in M. destruct (play _ _ _ _ (map f (seq 0 n)) _ h0) as [[ts h] es]. exact M.
Qed.
End Lin.

(** ** examples *)
From Coq Require Import String.
Definition t_abc : tr := Tr r_abc 4.
Definition history (r : list thr * heap * list hev) : list hev := snd r.
Definition ended (r : list thr * heap * list hev) : Prop := forall th, In th (fst (fst r)) -> th = Th None [].
Fixpoint rounds (n : nat) (l : list nat) : list nat := match n with O => [] | S n => (l ++ rounds n l)%list end.
Definition a7 := DoSetEx defaultHdl (s2b "a"%string) (GInt 7%Z).
Definition a8 := DoSetEx defaultHdl (s2b "a"%string) (GInt 8%Z).
Definition swaps := play no_room 1 2 (nid (root t_abc)) (rounds 12 [0; 1]) (map (Th None) [[a7]; [a8]]) h_abc.
Definition g_apple := DoGet defaultHdl apple.
Definition s_apricot := DoSet defaultHdl (s2b "apricot"%string) (GStr [50%N]).
Definition t_apple : tr := match insert_root newTrie apple (GStr [49%N]) with Ok (t, _) => t | _ => newTrie end.
Definition sch_miss : list nat := ([0; 1] ++ repeat 0 8 ++ repeat 1 40 ++ repeat 0 40)%list.
Definition miss := play no_room 1 3 (nid (root t_apple)) sch_miss (map (Th None) [[s_apricot]; [g_apple]]) h_apple.

(** all ways to explain a history *)
Ltac one A :=
  inversion A; clear A; subst; cbn [nth_error] in *;
  repeat match goal with
  | H : nth_error [] ?i = Some _ |- _ => exfalso; destruct i; discriminate H
  | H : nth_error (_ :: _) ?i = Some _ |- _ => is_var i; destruct i; cbn [nth_error] in H
  end;
  try discriminate;
  repeat match goal with H : Some _ = Some _ |- _ => injection H as H; subst end;
  cbn [put] in *;
  try match goal with H : does _ _ _ _ _ |- _ =>
    vm_compute in H; repeat match type of H with ex _ => destruct H as [? H] | _ /\ _ => destruct H as [? H] end;
    repeat match goal with X : _ /\ _ |- _ => destruct X | X : ex _ |- _ => destruct X | X : Ok _ = Ok _ |- _ => injection X as; subst end; subst
  end; try discriminate.
Ltac all_ways := repeat match goal with A : atomic _ _ _ (_ :: _) _ _ |- _ => one A end.
Lemma swaps_not : ~ exists t ss, atomic 1 t_abc [Idle; Idle] (history swaps) t ss.
Proof.
  assert (H : history swaps = [Call 0 a7; Call 1 a8; Reply 0 (Old (GStr [49%N])); Reply 1 (Old (GStr [49%N]))]) by (vm_compute; reflexivity).
  rewrite H. clear H. intros (t & ss & A). all_ways.
Qed.
Lemma miss_not : ~ exists t ss, atomic 1 t_apple [Idle; Idle] (history miss) t ss.
Proof.
  assert (H : history miss = [Call 0 s_apricot; Call 1 g_apple; Reply 1 (Value (QRes GNil false false [])); Reply 0 Stored]) by (vm_compute; reflexivity).
  rewrite H. clear H. intros (t & ss & A). all_ways.
Qed.
Lemma swaps_ended : ended swaps.
Proof. intros th. vm_compute. intuition. Qed.
Lemma miss_ended : ended miss.
Proof. intros th. vm_compute. intuition. Qed.
(** SetComment of one key by two goroutines; Update beside Update, and beside Get.  The calls of SetData do not overlap *)
Definition key_a : gostring := s2b "a"%string.
Definition c_ab := DoComment defaultHdl key_a [97%N] [98%N].
Definition c_cd := DoComment defaultHdl key_a [99%N] [100%N].
Definition g_desc := DoAttr Desc defaultHdl key_a.
Definition g_comm := DoAttr Comm defaultHdl key_a.
Definition g_a := DoGet defaultHdl key_a.
Definition add_x (v : gval) : gval := match v with GStr s => GStr (s ++ [120%N])%list | _ => GStr [120%N] end.
Definition u_x := DoUpdate defaultHdl key_a add_x.
Definition sch_cut (n : nat) : list nat := (repeat 0 n ++ repeat 1 40 ++ repeat 0 60)%list.
Definition mixed := play no_room 1 2 (nid (root t_abc)) (sch_cut 8) (map (Th None) [[c_ab; g_desc; g_comm]; [c_cd]]) h_abc.
Definition lost := play no_room 1 2 (nid (root t_abc)) (sch_cut 10) (map (Th None) [[u_x; g_a]; [u_x]]) h_abc.
Definition gap := play no_room 1 2 (nid (root t_abc)) (sch_cut 10) (map (Th None) [[u_x]; [g_a]]) h_abc.
Lemma mixed_not : ~ exists t ss, atomic 1 t_abc [Idle; Idle] (history mixed) t ss.
Proof.
  assert (H : history mixed = [Call 0 c_ab; Call 1 c_cd; Reply 1 (Yes true); Reply 0 (Yes true); Call 0 g_desc; Reply 0 (Is (GStr [99%N]) true);
    Call 0 g_comm; Reply 0 (Is (GStr [98%N]) true)]) by (vm_compute; reflexivity).
  rewrite H. clear H. intros (t & ss & A). all_ways.
Qed.
Lemma lost_not : ~ exists t ss, atomic 1 t_abc [Idle; Idle] (history lost) t ss.
Proof.
  assert (H : history lost = [Call 0 u_x; Call 1 u_x; Reply 1 Stored; Reply 0 Stored; Call 0 g_a;
    Reply 0 (Value (QRes (GStr [49; 120]%N) false true []))]) by (vm_compute; reflexivity).
  rewrite H. clear H. intros (t & ss & A). all_ways.
Qed.
Lemma gap_not : ~ exists t ss, atomic 1 t_abc [Idle; Idle] (history gap) t ss.
Proof.
  assert (H : history gap = [Call 0 u_x; Call 1 g_a; Reply 1 (Value (QRes GNil false true [])); Reply 0 Stored]) by (vm_compute; reflexivity).
  rewrite H. clear H. intros (t & ss & A). all_ways.
Qed.
Lemma mixed_ended : ended mixed.
Proof. intros th. vm_compute. intuition. Qed.
Lemma lost_ended : ended lost.
Proof. intros th. vm_compute. intuition. Qed.
Lemma gap_ended : ended gap.
Proof. intros th. vm_compute. intuition. Qed.
