(** Loading flags and handlers change only handler calls and modified marks. *)
From Coq Require Import List NArith ZArith Bool Arith Lia.
From Verif Require Import GoStr Utf8 Node NodeWf InsertProofs MatchProofs TreeOps Trie Spec Refine ApiRefine Reach Derived Derived2 Derived3
  Derived5 Store StoreProofs Session SessionProofs.
Import ListNotations.
Open Scope nat_scope.
Open Scope list_scope.

(** the attributes without the modified mark; an answer without the handler calls *)
Definition unmark (a : attr) : attr := Attr (a_data a) (a_desc a) (a_cmt a) (a_tag a) (a_leaf a) (a_has a) false.
Definition unheard (a : sans) : sans :=
  match a with ASet old _ => ASet old [] | ARem b _ => ARem b [] | a => a end.
(** the same view of the tree; anything else may differ *)
Definition same_calls (p q : list (store * scall)) : Prop :=
  Forall2 (fun a b => so_h (fst a) = so_h (fst b) /\ snd a = snd b) p q.

Definition alike (m n : smap) : Prop := forall k, option_map unmark (sget m k) = option_map unmark (sget n k).

Lemma alike_mem m n k : alike m n -> smem m k = smem n k.
Proof.
  intros E. specialize (E k). destruct (smem m k) eqn:A, (smem n k) eqn:B; auto.
  - apply smem_sget in A as [a A]. rewrite A in E. destruct (sget n k) eqn:C; [|discriminate].
    assert (smem n k = true) by (apply smem_sget; eauto). congruence.
  - apply smem_sget in B as [b B]. rewrite B in E. destruct (sget m k) eqn:C; [|discriminate].
    assert (smem m k = true) by (apply smem_sget; eauto). congruence.
Qed.
Lemma alike_in m n : alike m n -> forall k, In k (skeys m) <-> In k (skeys n).
Proof. intros E k. rewrite <- !smem_in, (alike_mem m n k E). reflexivity. Qed.
Lemma existsb_set {A} (f : A -> bool) l l' : (forall x, In x l <-> In x l') -> existsb f l = existsb f l'.
Proof.
  intros E. destruct (existsb f l) eqn:A1, (existsb f l') eqn:B; auto.
  - apply existsb_exists in A1 as (x & I1 & F). apply E in I1.
    assert (existsb f l' = true) by (apply existsb_exists; eauto). congruence.
  - apply existsb_exists in B as (x & I1 & F). apply E in I1.
    assert (existsb f l = true) by (apply existsb_exists; eauto). congruence.
Qed.
Lemma existsb_same {A} (f g : A -> bool) l : (forall x, f x = g x) -> existsb f l = existsb g l.
Proof. intros E. induction l as [|x l IH]; cbn; [reflexivity|]. now rewrite E, IH. Qed.
Lemma filter_nil {A} (f : A -> bool) l : is_nil (filter f l) = negb (existsb f l).
Proof. induction l as [|x l IH]; cbn; auto. destruct (f x); cbn; auto. Qed.
Lemma shortest_nil ks : (match shortest ks with Some _ => false | None => true end) = is_nil ks.
Proof. destruct ks as [|k ks]; cbn; auto. now destruct (shortest ks). Qed.

(** found the same; missing the same *)
Definition kind (a b : Spec.sres) : Prop :=
  match a, b with
  | SFound k, SFound k' => k = k'
  | SPart _, SPart _ | SMiss, SMiss => True
  | _, _ => False
  end.
Lemma probe_kind d m n w : alike m n -> kind (s_probe d m w) (s_probe d n w).
Proof.
  intros E. unfold s_probe, s_find. rewrite !(alike_mem m n _ E).
  destruct (is_nil w); [reflexivity|]. destruct (smem n w); [reflexivity|]. destruct (smem n (w ++ [d])); [reflexivity|].
  pose proof (shortest_nil (filter (sprefix w) (skeys m))) as S1. pose proof (shortest_nil (filter (sprefix w) (skeys n))) as S2.
  rewrite filter_nil, (existsb_set _ _ _ (alike_in m n E)), <- filter_nil in S1.
  destruct (shortest (filter (sprefix w) (skeys m))), (shortest (filter (sprefix w) (skeys n))); try exact I; try congruence.
  set (f := fun m k => sprefix k w && negb (existsb (sprefix k) (skeys m))).
  change (kind (match filter (f m) (skeys m) with k :: _ => SPart k | [] => SMiss end)
               (match filter (f n) (skeys n) with k :: _ => SPart k | [] => SMiss end)).
  assert (F : is_nil (filter (f m) (skeys m)) = is_nil (filter (f n) (skeys n))).
  { rewrite !filter_nil, (existsb_set _ _ _ (alike_in m n E)). f_equal. apply existsb_same. intros k. unfold f.
    now rewrite (existsb_set _ _ _ (alike_in m n E)). }
  destruct (filter (f m) (skeys m)), (filter (f n) (skeys n)); cbn in F |- *; congruence || exact I.
Qed.
Lemma search_kind d up m n w : alike m n -> kind (s_search d up m w) (s_search d up n w).
Proof.
  intros E. unfold s_search. generalize (w :: if up then s_ups d w else []) as ws. induction ws as [|x ws IH]; cbn [s_first]; [exact I|].
  pose proof (probe_kind d m n (runes x) E) as K.
  destruct (s_probe d m (runes x)), (s_probe d n (runes x)); cbn in K; try contradiction; subst; cbn; auto.
Qed.
Lemma query_alike d m n a b : alike m n -> kind a b -> s_query d m a = s_query d n b.
Proof.
  intros E K. destruct a as [k|k|], b as [k'|k'|]; cbn in K; try contradiction; try reflexivity. subst k'.
  unfold s_query, s_hit. specialize (E k). destruct (sget m k) as [x|], (sget n k) as [y|]; try discriminate; [|reflexivity].
  cbn in E. destruct x, y. cbn in E |- *. injection E as -> -> -> -> -> ->. reflexivity.
Qed.
Lemma old_alike m n w : alike m n -> s_old w m = s_old w n.
Proof.
  intros E. unfold s_old. specialize (E w). destruct (sget m w) as [x|], (sget n w) as [y|]; try discriminate; [|reflexivity].
  destruct x, y. cbn in E |- *. now injection E.
Qed.
Lemma set_alike w v m n : alike m n -> alike (s_set w v m) (s_set w v n).
Proof.
  intros E k. rewrite !s_set_get. rewrite !(existsb_set _ _ _ (alike_in m n E)). destruct (str_eqb w k).
  - pose proof (E w) as Ew. destruct (sget m w) as [x|], (sget n w) as [y|]; try discriminate; [|reflexivity].
    destruct x, y. cbn in Ew |- *. now injection Ew as -> -> -> -> -> ->.
  - pose proof (E k) as Ek. destruct (sget m k) as [x|], (sget n k) as [y|]; try discriminate; [exact Ek|reflexivity].
Qed.
Lemma mark_alike w m : alike (m_mark w m) m.
Proof.
  intros k. unfold m_mark. rewrite s_upd_get. destruct (str_eqb w k) eqn:Ek; [|reflexivity].
  apply str_eqb_eq in Ek. subst k. destruct (sget m w); reflexivity.
Qed.
Lemma alike_trans a b c : alike a b -> alike b c -> alike a c.
Proof. intros X Y k. now rewrite X. Qed.
Lemma alike_sym a b : alike a b -> alike b a.
Proof. intros X k. now rewrite X. Qed.

Lemma call_alike s s' m n c : so_h s = so_h s' -> alike m n ->
  alike (fst (m_call s m c)) (fst (m_call s' n c)) /\ unheard (snd (m_call s m c)) = unheard (snd (m_call s' n c)).
Proof.
  intros H E.
  assert (K : forall p, kind (s_search (hdelim (so_h s)) (is_up (so_h s)) m (full (so_h s) p))
                             (s_search (hdelim (so_h s)) (is_up (so_h s)) n (full (so_h s) p))) by (intros; now apply search_kind).
  destruct c as [p v|p|p|p|p]; cbn [m_call]; rewrite <- H; cbn [fst snd unheard].
  - set (w := runes (replace_byte 32 45 (full (so_h s) p))). split; [|now rewrite (old_alike m n w E)].
    assert (X : forall (b : bool) m, alike (if b then m_mark w m else m) m) by (intros [] ?; [apply mark_alike|intros ?; reflexivity]).
    pose proof (X (negb (so_loading s)) (s_set w v m)) as X1. pose proof (X (negb (so_loading s')) (s_set w v n)) as X2.
    exact (alike_trans _ _ _ X1 (alike_trans _ _ _ (set_alike w v m n E) (alike_sym _ _ X2))).
  - specialize (K p). destruct (s_search _ _ m _) as [k|k|], (s_search _ _ n _) as [k'|k'|]; cbn in K; try contradiction;
      try (split; [exact E|reflexivity]). subst k'. destruct k as [|c k]; [split; [exact E|reflexivity]|].
    cbn [fst snd unheard]. split; [|reflexivity]. intros x. rewrite !(filter_sget (fun y => negb (has_prefix (c :: k) y))).
    destruct (negb _); [apply E|reflexivity].
  - rewrite (query_alike _ m n _ _ E (K p)). split; [exact E|reflexivity].
  - rewrite (query_alike _ m n _ _ E (K p)). split; [exact E|reflexivity].
  - split; [exact E|]. specialize (K p). destruct (s_search _ _ m _), (s_search _ _ n _); cbn in K; try contradiction; reflexivity.
Qed.
Lemma run_alike p q : same_calls p q -> forall m n, alike m n ->
  alike (fst (m_run p m)) (fst (m_run q n)) /\ map unheard (snd (m_run p m)) = map unheard (snd (m_run q n)).
Proof.
  induction 1 as [|[s c] [s' c'] p q [H1 H2] _ IH]; intros m n E; cbn [m_run].
  - auto.
  - cbn [fst snd] in H1, H2. subst c'. destruct (call_alike s s' m n c H1 E) as [A B].
    destruct (m_call s m c) as [m1 a], (m_call s' n c) as [n1 b]. cbn [fst snd] in A, B.
    destruct (IH m1 n1 A) as [C F]. destruct (m_run p m1), (m_run q n1). cbn [fst snd map] in *. split; [exact C|congruence].
Qed.

Theorem quiet D rf p q t : plain_reach D t -> prog_plain D p -> same_calls p q ->
  exists t1 t2 as1 as2, st_run (S rf) p t = Ok (t1, as1) /\ st_run (S rf) q t = Ok (t2, as2) /\
    map unheard as1 = map unheard as2 /\ forall k, option_map unmark (t_get t1 k) = option_map unmark (t_get t2 k).
Proof.
  intros R P SC.
  assert (Q : prog_plain D q).
  { revert P. induction SC as [|[s c] [s' c'] p q [H1 H2] SC IH]; intros P; [constructor|].
    inversion P as [|? ? P1 P2]; subst. cbn [fst snd] in *. subst c'. constructor; [|exact (IH P2)].
    cbn [fst snd]. unfold call_plain in *. now rewrite <- H1. }
  destruct (session_from D rf p t R P) as (t1 & E1 & G1). destruct (session_from D rf q t R Q) as (t2 & E2 & G2).
  destruct (run_alike p q SC (entries t) (entries t)) as [A B]; [intros k; reflexivity|].
  exists t1, t2. do 2 eexists. split; [exact E1|]. split; [exact E2|]. split; [exact B|].
  intros k. rewrite G1, G2. apply A.
Qed.
