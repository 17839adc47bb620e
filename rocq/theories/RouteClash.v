(** Two routes whose parameters stand in the same place and have different names.  Only proofs. *)
From Coq Require Import List NArith ZArith Bool Arith Lia.
From Verif Require Import GoStr Utf8 Node NodeWf MatchProofs Trie Spec TreeOps Refine ApiRefine Reach.
From Verif Require Import Derived Pattern Route Route2.
Import ListNotations.
Open Scope nat_scope.
Open Scope list_scope.

(** where two keys part there is a node *)
Lemma fork_node p y1 r1 y2 r2 : y1 <> y2 -> forall s pre,
  wfn s -> dom pre s (p ++ y1 :: r1) -> dom pre s (p ++ y2 :: r2) -> dom pre s p.
Proof.
  intros Hy. induction s as [s IH] using node_ind'. intros pre W D1 D2.
  assert (NoP : forall u1 q1 u2 q2, u1 <> u2 -> ~ prefix (p ++ u1 :: q1) (p ++ u2 :: q2)).
  { intros u1 q1 u2 q2 N [z E]. rewrite <- app_assoc in E. apply app_inv_head in E. inversion E. congruence. }
  pose proof (dom_inv _ _ _ D1) as I1. pose proof (dom_inv _ _ _ D2) as I2.
  destruct I1 as [E1|(c1 & Hc1 & I1)].
  { exfalso. pose proof (dom_prefix _ _ _ D2) as P. rewrite <- E1 in P. exact (NoP _ _ _ _ Hy P). }
  destruct I2 as [E2|(c2 & Hc2 & I2)].
  { exfalso. pose proof (dom_prefix _ _ _ D1) as P. rewrite <- E2 in P. exact (NoP _ _ _ _ (not_eq_sym Hy) P). }
  destruct (wfn_kids _ _ W Hc1) as [N1 W1]. destruct (wfn_kids _ _ W Hc2) as [N2 W2].
  destruct (dom_head _ _ _ N1 I1) as (e1 & z1 & F1 & K1). destruct (dom_head _ _ _ N2 I2) as (e2 & z2 & F2 & K2).
  destruct (N.eq_dec e1 e2) as [Ee|Ee].
  - subst e2. assert (c1 = c2) by (apply (nodup_fst_eq (nkids s)); auto using wfn_nodup; congruence). subst c2.
    rewrite Forall_forall in IH. apply (dom_kid _ _ _ _ Hc1). exact (IH c1 Hc1 _ W1 I1 I2).
  - assert (Ep : p = pre ++ npath s).
    { clear - K1 K2 Ee Hy. revert K1 K2. generalize (pre ++ npath s) as u. intros u. revert u.
      induction p as [|p0 p IHp]; intros [|u0 u] K1 K2; cbn in K1, K2; auto.
      - inversion K1; inversion K2; congruence.
      - inversion K1; inversion K2; congruence.
      - inversion K1; inversion K2; subst. f_equal. auto. }
    rewrite Ep. apply dom_self.
Qed.

(** the fragment ends with the ':' *)
Lemma param_bare rf d n a x0 x lrd par kv :
  npath n = a ++ [colon] -> lrd_end d lrd a = true -> x0 <> colon -> ~ In d (x0 :: x) ->
  matchR (S rf) d n (a ++ x0 :: x) lrd par kv =
    Ok (MRes false false None None (kv ++ [([], of_runes (x0 :: x))])).
Proof.
  intros E L Hx Dx. rewrite (enter _ _ _ _ _ _ _ _ _ _ _ E Hx), L. cbn [retriever andb].
  change (colon =? star)%N with false. change (colon =? colon)%N with true. cbv iota.
  rewrite (extractor_out d (S (length a)) (npath n)) by (rewrite E, app_length; cbn; lia).
  rewrite (extractor_in d (length a) (a ++ x0 :: x)) by (rewrite app_length; cbn; lia).
  rewrite skipn_here, seg_all by assumption.
  rewrite app_length, Nat.eqb_refl. reflexivity.
Qed.

Theorem routes_clash rf h t q c y1 r1 y2 r2 x0 x path :
  reached t -> ends_delim (hdelim h) q -> ~ In (hdelim h) c -> y1 <> y2 ->
  t_get t (q ++ colon :: c ++ y1 :: r1) <> None -> t_get t (q ++ colon :: c ++ y2 :: r2) <> None ->
  (forall k, t_get t k <> None -> aside (hdelim h) k (q ++ [x0]) \/ prefix (q ++ colon :: c) k) ->
  (forall k, t_get t k <> None -> ~ prefix (q ++ [x0]) k) ->
  x0 <> colon -> ~ In (hdelim h) (x0 :: x) -> runes (full h path) = q ++ x0 :: x ->
  exists a, t_get t (q ++ colon :: c) = Some a /\
    (c <> [] -> Query (S rf) h t path =
      Ok (QRes (if a_has a then a_data a else GNil) (negb (a_leaf a)) (a_leaf a) [(of_runes c, of_runes (x0 :: x))])) /\
    (c = [] -> is_up h = false -> Query (S rf) h t path = Ok (QRes GNil false false [([], of_runes (x0 :: x))])).
Proof.
  set (d := hdelim h). set (B := q ++ colon :: c).
  intros R Hq Dc Hy G1 G2 Hpl Hno Hx Dx Ew. pose proof (reached_wf t R) as WT.
  pose proof (proj1 (proj2 (proj1 WT))) as W.
  assert (EB : forall y r, q ++ colon :: c ++ y :: r = B ++ y :: r) by (intros; unfold B; now rewrite <- app_assoc).
  rewrite EB in G1, G2.
  assert (DB : dom [] (root t) B).
  { apply (fork_node B y1 r1 y2 r2 Hy); auto; now apply dom_get. }
  assert (PB : forall k, prefix B k -> prefix (q ++ [colon]) k).
  { intros k [z ->]. unfold B. exists (c ++ z). rewrite <- !app_assoc. reflexivity. }
  destruct (route_probe t d q colon x0 x R (or_introl eq_refl) (ends_delim_lrd _ _ Hq) Hx)
    as (kp & m & n & b & z & H1 & H2 & H3 & H4 & H5 & H6 & H7); auto.
  { exists B. split; [now apply dom_get|]. apply PB, prefix_refl. }
  { intros k G. destruct (Hpl k G) as [P|P]; auto. }
  assert (Ez : B = kp ++ npath n).
  { apply (edge_gap (root t) [] kp m n B W H1 H2 DB).
    - unfold B. rewrite H3, <- app_assoc. destruct b as [|b0 b]; do 2 eexists; reflexivity.
    - destruct (Hpl (q ++ colon :: z)) as [P|P].
      + now apply (ents_get t _ n).
      + exfalso. now apply aside_key_not in P; auto.
      + rewrite H4, app_assoc, <- H3. exact P. }
  assert (Ec : z = c).
  { unfold B in Ez. rewrite H4, app_assoc, <- H3 in Ez. apply app_inv_head in Ez. now inversion Ez. }
  subst z. exists (attr_of (info_of n)). split; [exact (ents_attr t _ _ WT H5)|]. split.
  - intros Hc. pose proof (param_end rf d n b c x0 x (lrd_end d false kp) (Some m) [] H4 H6 Hc Dc Hx Dx) as E.
    unfold Query, search. fold d. rewrite (H7 rf _ Ew); rewrite E; [|now left].
    cbn [bind m_matched m_partial orb m_child m_parent m_kv app]. unfold query_of. cbn [s_node s_partial s_kv].
    rewrite hasData_bit, isBranch_bit.
    assert (EE : endsWith n d = false).
    { unfold endsWith. rewrite H4. destruct c as [|c0 c'] using rev_ind; [congruence|].
      rewrite app_comm_cons, app_assoc, rev_unit. apply N.eqb_neq. intros ->. apply Dc. apply in_elt. }
    rewrite EE. cbn [attr_of info_of a_has a_data a_leaf i_type i_data].
    destruct (t_leaf (ntype n)); reflexivity.
  - intros -> U. pose proof (param_bare rf d n b x0 x (lrd_end d false kp) (Some m) [] H4 H6 Hx Dx) as E.
    unfold Query, search. fold d. rewrite (H7 rf _ Ew); rewrite E; [|now right].
    cbn [bind m_matched m_partial orb m_kv app]. unfold is_up in U. destruct (hmode h); try discriminate; reflexivity.
Qed.
