(** Programs of store calls against one map and one rule for handlers. *)
From Coq Require Import List NArith ZArith Bool Arith Lia.
From Verif Require Import GoStr Utf8 Node NodeWf InsertProofs MatchProofs TreeOps Trie Spec Refine ApiRefine Reach Derived Derived2 Derived3 Derived5 Store StoreProofs Session.
Import ListNotations.
Open Scope nat_scope.
Open Scope list_scope.

(** ** the specification *)
(** a write outside loading marks the key as modified *)
Definition m_mark (w : skey) (m : smap) : smap := s_upd w (s_nodeop (NSetModified true)) m.
(** what a call through the store [s] does to the map, answers and tells the handlers *)
Definition m_call (s : store) (m : smap) (c : scall) : smap * sans :=
  let h := so_h s in
  let user := negb (so_loading s) in
  let look path := s_search (hdelim h) (is_up h) m (full h path) in
  let ask path := s_query (hdelim h) m (look path) in
  match c with
  | SSet path v =>
      let w := runes (replace_byte 32 45 (full h path)) in
      let old := s_old w m in
      (if user then m_mark w (s_set w v m) else s_set w v m,
       ASet old (if negb (snd (ask path)) && (so_loading s || gval_is_nil old)
                 then map (fun i => ENew i path v user) (listeners so_new s)
                 else map (fun i => EChange i path v old user) (listeners so_chg s)))
  | SRemove path =>
      match look path with
      | SFound (c :: k) =>
          (filter (fun e => negb (has_prefix (c :: k) (fst e))) m,
           ARem true (map (fun i => EDelete i path (s_old (c :: k) m) user) (listeners so_del s)))
      | _ => (m, ARem false [])
      end
  | SGet path => (m, AGet (fst (fst (ask path))) (snd (ask path)))
  | SMust path => (m, AMust (if negb (snd (ask path)) && negb (snd (fst (ask path))) then GNil else fst (fst (ask path))))
  | SHas path => (m, AHas (s_has (look path)))
  end.
Fixpoint m_run (prog : list (store * scall)) (m : smap) : smap * list sans :=
  match prog with
  | [] => (m, [])
  | (s, c) :: prog' => let '(m1, a) := m_call s m c in let '(m2, l) := m_run prog' m1 in (m2, a :: l)
  end.
(** the keys the program stores are plain *)
Definition call_plain (D : rune -> Prop) (s : store) (c : scall) : Prop :=
  D (hdelim (so_h s)) /\
  match c with
  | SSet path _ => forall d, D d -> plain d (runes (replace_byte 32 45 (full (so_h s) path)))
  | _ => True
  end.
Definition prog_plain (D : rune -> Prop) (prog : list (store * scall)) : Prop := Forall (fun sc => call_plain D (fst sc) (snd sc)) prog.

Definition holds (D : rune -> Prop) (t : tr) (m : smap) : Prop := plain_reach D t /\ abs (root t) m /\ plain_all D m.

Lemma remove_data (D : rune -> Prop) rf h t m path t' n p b :
  D (hdelim h) -> holds D t m -> RemoveEx (S rf) h t path = Ok (t', n, p, b) ->
  match s_search (hdelim h) (is_up h) m (full h path) with
  | SFound (c :: k) => b = true -> exists x, n = Some x /\ ndata x = s_old (c :: k) m
  | _ => b = false
  end.
Proof.
  intros HD (R & A & PA) E. destruct (plain_reach_inv D t R) as [WT _].
  destruct (search_spec (hdelim h) t m WT A (proj2 (plain_tree_map (hdelim h) t m WT A) (PA _ HD)) rf h (full h path) eq_refl)
    as (r & Es & OK & _).
  unfold RemoveEx in E. rewrite Es in E. cbn [bind] in E.
  destruct (s_search (hdelim h) (is_up h) m (full h path)) as [k|k|]; cbn [search_ok] in OK.
  - destruct OK as (x & Hin & Hp & Hn & Hk). rewrite Hn, Hp in E. destruct k as [|c k].
    + rewrite Hk in E. now injection E as _ _ _ <-.
    + intros ->. destruct (s_parent r) as [pn|]; [|discriminate]. destruct (fst _); [|discriminate].
      injection E as _ <- _. exists x. split; [reflexivity|].
      pose proof (ents_look _ _ _ (proj1 (proj2 (proj1 WT))) Hin) as L.
      unfold s_old. rewrite <- (A (c :: k)), L. reflexivity.
  - destruct k as [|c k].
    + destruct OK as [Hp Hn]. rewrite Hn in E. now injection E as _ _ _ <-.
    + destruct OK as [Hp (x & _ & Hn)]. rewrite Hn, Hp in E. now injection E as _ _ _ <-.
  - destruct OK as [_ Hn]. rewrite Hn in E. now injection E as _ _ _ <-.
Qed.

Lemma more (D : rune -> Prop) rf h t m o t' r : D (hdelim h) -> holds D t m -> op_plain D (full h) o ->
  t_step (S rf) h t o = Ok (t', r) -> holds D t' (fst (s_step (view_of h) m o)) /\ r = snd (s_step (view_of h) m o).
Proof.
  intros HD (R & A & PA) OP E. destruct (plain_reach_inv D t R) as [WT _].
  destruct (step_refines rf D h t m o HD WT A PA) as (t1 & E1 & WT1 & A1). rewrite E in E1. injection E1 as <- ->.
  split; [|reflexivity]. split; [eapply plain_more; eauto|]. split; [exact A1|]. exact (plain_step D (view_of h) m o PA OP).
Qed.
Lemma steps (D : rune -> Prop) rf h t m o : D (hdelim h) -> holds D t m -> exists t', t_step (S rf) h t o = Ok (t', snd (s_step (view_of h) m o)).
Proof.
  intros HD (R & A & PA). destruct (plain_reach_inv D t R) as [WT _].
  destruct (step_refines rf D h t m o HD WT A PA) as (t1 & E1 & _). eauto.
Qed.

Theorem call_refines (D : rune -> Prop) rf s t m c : holds D t m -> call_plain D s c ->
  exists t', st_call (S rf) s t c = Ok (t', snd (m_call s m c)) /\ holds D t' (fst (m_call s m c)).
Proof.
  intros H [HD CP]. pose proof H as (R & A & PA). set (h := so_h s) in *.
  destruct c as [path v|path|path|path|path]; cbn [st_call m_call fst snd]; fold h.
  - (* Set *)
    unfold st_Set. fold h.
    destruct (steps D rf h t m (OQuery path) HD H) as (t0 & EQ). cbn [t_step s_step view_of v_delim v_pfx v_up] in EQ.
    destruct (Query (S rf) h t path) as [q| |]; try (destruct (s_query _ _ _) as [[? ?] ?]; discriminate). cbn [bind] in EQ |- *.
    destruct (s_query (hdelim h) m (s_search (hdelim h) (is_up h) m (full h path))) as [[x br] fd]. cbn [snd] in *.
    injection EQ as _ _ _ EF. rewrite EF. clear EF q x br t0.
    destruct (setKV_step (S rf) s t path v (negb fd) [] (plain_reach_reached D t R)) as (t' & id & E & ST & _).
    fold h in E, ST. unfold wkey in E, ST. set (w := runes (replace_byte 32 45 (full h path))) in *.
    assert (O : old_at t w = s_old w m) by (unfold old_at, s_old; now rewrite (abs_get _ _ _ A)).
    rewrite O in E, ST. rewrite E. cbn [bind]. exists t'. rewrite tryOnSet_listeners. split.
    + destruct (so_loading s), fd, (gval_is_nil (s_old w m)); reflexivity.
    + assert (OP : op_plain D (full h) (wop (so_loading s) path v [])) by (unfold wop; destruct (so_loading s); exact CP).
      destruct (more D rf h t m _ t' _ HD H OP ST) as [H' _]. unfold wop in H'. destruct (so_loading s); exact H'.
  - (* Remove *)
    unfold st_Remove. fold h.
    destruct (steps D rf h t m (ORemove path) HD H) as (t' & E). pose proof E as E0.
    destruct (more D rf h t m (ORemove path) t' _ HD H (fun _ _ => I) E) as [H' _].
    cbn [t_step] in E. unfold Remove in E.
    destruct (RemoveEx (S rf) h t path) as [[[[t1 n] p] b]| |] eqn:Er; cbn [bind] in E; try discriminate.
    pose proof (remove_data D rf h t m path t1 n p b HD H Er) as RD. cbn [bind].
    cbn [s_step view_of v_delim v_pfx v_up] in E, H'. unfold s_remove in E, H'.
    injection E as E1 E2. subst t1.
    destruct (s_search (hdelim h) (is_up h) m (full h path)) as [[|c k]|k|]; cbn [s_hit fst snd] in *; injection E2 as E2; rewrite E2 in *;
      exists t'; try (split; [reflexivity|exact H']).
    destruct (RD eq_refl) as (x & -> & Ex). rewrite tryOnDelete_listeners, Ex. split; [reflexivity|exact H'].
  - unfold st_Get. fold h. destruct (steps D rf h t m (OGet path) HD H) as (t0 & E).
    cbn [t_step s_step view_of v_delim v_pfx v_up] in E.
    destruct (s_query _ _ _) as [[x br] fd]. destruct (Get (S rf) h t path) as [[y b]| |]; try discriminate.
    cbn [bind fst snd] in *. injection E as _ -> ->. exists t. auto.
  - unfold st_MustGet. fold h. destruct (steps D rf h t m (OMustGet path) HD H) as (t0 & E).
    cbn [t_step s_step view_of v_delim v_pfx v_up] in E.
    destruct (s_query _ _ _) as [[x br] fd]. destruct (MustGet (S rf) h t path) as [y| |]; try discriminate.
    cbn [bind fst snd] in *. injection E as _ ->. exists t. auto.
  - unfold st_Has. fold h. destruct (steps D rf h t m (OSearch path) HD H) as (t0 & E).
    cbn [t_step s_step view_of v_delim v_pfx v_up] in E.
    destruct (Search_ (S rf) h t path) as [y| |]; try discriminate.
    cbn [bind fst snd] in *. injection E as _ ->. exists t. auto.
Qed.

Theorem prog_refines D rf prog : forall t m, holds D t m -> prog_plain D prog ->
  exists t', st_run (S rf) prog t = Ok (t', snd (m_run prog m)) /\ holds D t' (fst (m_run prog m)).
Proof.
  induction prog as [|[s c] prog IH]; intros t m H PP; cbn [st_run m_run].
  - exists t. auto.
  - inversion PP as [|? ? P1 P2]; subst. cbn [fst snd] in P1.
    destruct (call_refines D rf s t m c H P1) as (t1 & E & H1). rewrite E. cbn [bind].
    destruct (m_call s m c) as [m1 a]. cbn [fst snd] in *.
    destruct (IH t1 m1 H1 P2) as (t2 & E2 & H2). rewrite E2. cbn [bind].
    destruct (m_run prog m1) as [m2 l]. exists t2. auto.
Qed.
Lemma holds_new D : holds D newTrie s_init.
Proof. split; [constructor|]. split; [exact newTrie_abs|]. intros d _. apply plain_init. Qed.
Lemma holds_here D t : plain_reach D t -> holds D t (entries t).
Proof. intros R. split; [exact R|]. split; [apply abs_entries|]. exact (proj2 (plain_reach_inv D t R)). Qed.

Theorem session D rf prog : prog_plain D prog ->
  exists t, st_run (S rf) prog newTrie = Ok (t, snd (m_run prog s_init)) /\
    forall k, t_get t k = sget (fst (m_run prog s_init)) k.
Proof.
  intros PP. destruct (prog_refines D rf prog newTrie s_init (holds_new D) PP) as (t & E & _ & A & _).
  exists t. split; [exact E|]. intros k. exact (abs_get _ _ _ A).
Qed.
Theorem session_from D rf prog t : plain_reach D t -> prog_plain D prog ->
  exists t', st_run (S rf) prog t = Ok (t', snd (m_run prog (entries t))) /\
    forall k, t_get t' k = sget (fst (m_run prog (entries t))) k.
Proof.
  intros R PP. destruct (prog_refines D rf prog t (entries t) (holds_here D t R) PP) as (t' & E & _ & A & _).
  exists t'. split; [exact E|]. intros k. exact (abs_get _ _ _ A).
Qed.
