(** Proofs about the small packages of Misc.v. *)
From Coq Require Import String.
From Coq Require Import List NArith ZArith Bool Arith Lia Permutation Sorted ZifyBool ZifyNat ZifyN.
From Verif Require Import GoStr Utf8 Trie Climb Cvter Nested Export MergeProofs Misc.
Import ListNotations.
Open Scope nat_scope.
Open Scope list_scope.

(** ** op.go *)
Definition named (o : N) : Prop := exists n, op_name opStrings o = Some n.
Lemma named_cases o : named o -> In o [OpCreate; OpWrite; OpRename; OpRemove; OpChmod; OpNone].
Proof.
  intros [n H]. unfold opStrings in H. cbn [op_name] in H.
  repeat match type of H with (if (?a =? o)%N then _ else _) = _ =>
    destruct (N.eqb_spec a o); [subst; cbn; tauto|] end.
  discriminate.
Qed.
(** no name that MarshalText writes is read back, and the receiver keeps its old value *)
Theorem op_text_refuted addr o old : UnmarshalText old (MarshalText addr o) = (old, false).
Proof.
  unfold MarshalText. destruct (op_name opStrings o) as [n|] eqn:E.
  - assert (N : named o) by (exists n; exact E). apply named_cases in N. cbn in N.
    decompose [or] N; subst; try tauto; cbn in E; injection E as <-; reflexivity.
  - reflexivity.
Qed.
Theorem op_text_lower addr o old : named o -> UnmarshalText old (lowerA (MarshalText addr o)) = (o, true).
Proof.
  intros N. apply named_cases in N. cbn in N. decompose [or] N; subst; try tauto; reflexivity.
Qed.
(** the names that are read *)
Theorem op_parse old text o : UnmarshalText old text = (o, true) <->
  exists s, text = s2b s /\
    In (s, o) [("create"%string, OpCreate); ("new"%string, OpCreate); ("modify"%string, OpWrite);
               ("write"%string, OpWrite); ("rename"%string, OpRename); ("remove"%string, OpRemove);
               ("delete"%string, OpRemove); ("rm"%string, OpRemove); ("chmod"%string, OpChmod);
               ("none"%string, OpNone)].
Proof.
  split.
  - unfold UnmarshalText, opStringsRev. cbn [op_value].
    repeat match goal with |- context [if str_eqb ?a text then _ else _] =>
      let E := fresh in destruct (str_eqb a text) eqn:E;
      [apply str_eqb_eq in E; subst text; intros X; injection X as <-; eexists; split; [reflexivity|cbn; tauto]|clear E] end.
    discriminate.
  - intros (s & -> & H). cbn in H. decompose [or] H; try tauto;
      match goal with X : (_, _) = (_, _) |- _ => injection X as <- <- end; reflexivity.
Qed.
Theorem op_bad old text o : UnmarshalText old text = (o, false) -> o = old.
Proof. unfold UnmarshalText. destruct (op_value opStringsRev text); congruence. Qed.

(** ** RecursiveMode *)
Theorem store_mode_refuted fuel h : st_RecursiveMode fuel h = Fuel.
Proof. induction fuel; cbn; auto. Qed.
Inductive vop := VN | VR | VBR | VPre (p : list gostring) | VRep (p : list gostring) | VSet (p : list gostring) | VDelim (d : rune).
Definition vstep (h : hdl) (o : vop) : hdl :=
  match o with
  | VN => viewN h | VR => viewR h | VBR => viewBR h
  | VPre p => withPrefix h p | VRep p => withPrefixReplaced h p | VSet p => setPrefix h p
  | VDelim d => setDelimiter h d
  end.
Definition picks_mode (o : vop) : option rmode :=
  match o with VN => Some ModeNone | VR => Some ModeDown | VBR => Some ModeUp | _ => None end.
Theorem trie_mode vs :
  RecursiveMode (fold_left vstep vs defaultHdl) = ModeNone /\ (forall v, In v vs -> picks_mode v = None) \/
  exists a v b, vs = a ++ v :: b /\ picks_mode v = Some (RecursiveMode (fold_left vstep vs defaultHdl)) /\
    forall w, In w b -> picks_mode w = None.
Proof.
  induction vs as [|v vs IH] using rev_ind; [left; split; [reflexivity|intros v []]|].
  rewrite fold_left_app. cbn [fold_left]. set (h := fold_left vstep vs defaultHdl) in *.
  destruct (picks_mode v) as [m|] eqn:E.
  - right. exists vs, v, []. split; [reflexivity|]. split; [|intros w []].
    rewrite E. f_equal. destruct v; cbn in E; try discriminate; injection E as <-; reflexivity.
  - assert (S : RecursiveMode (vstep h v) = RecursiveMode h) by (destruct v; cbn in E; try discriminate; reflexivity).
    rewrite S. destruct IH as [[H1 H2]|(a & x & b & -> & H1 & H2)].
    + left. split; auto. intros w Hw. apply in_app_or in Hw. destruct Hw as [Hw|[<-|[]]]; auto.
    + right. exists a, x, (b ++ [v]). split; [now rewrite <- app_assoc|]. split; [exact H1|].
      intros w Hw. apply in_app_or in Hw. destruct Hw as [Hw|[<-|[]]]; auto.
Qed.

(** ** sorted keys *)
(** the order of Go strings: byte-wise *)
Fixpoint str_lt (a b : gostring) : Prop :=
  match a, b with
  | _, [] => False
  | [], _ :: _ => True
  | x :: a', y :: b' => (x < y)%N \/ x = y /\ str_lt a' b'
  end.
Definition str_le (a b : gostring) : Prop := str_lt a b \/ a = b.
Lemma str_leb_le a : forall b, str_leb a b = true <-> str_le a b.
Proof.
  unfold str_le. induction a as [|x a IH]; intros [|y b]; cbn [str_leb str_lt].
  - split; auto.
  - split; auto.
  - split; [discriminate|intros [[]|X]; discriminate].
  - destruct (N.eqb_spec x y) as [->|N].
    + rewrite IH. split.
      * intros [H| ->]; auto.
      * intros [[H|[_ H]]|H]; auto; [lia|]. injection H as ->. auto.
    + rewrite N.ltb_lt. split; auto. intros [[H|[H _]]|H]; auto; [congruence|]. injection H; congruence.
Qed.
Lemma str_lt_trans a : forall b c, str_lt a b -> str_lt b c -> str_lt a c.
Proof.
  induction a as [|x a IH]; intros [|y b] [|z c]; cbn; try tauto.
  intros [H1|[-> H1]] [H2|[-> H2]]; try (left; lia). right. split; eauto.
Qed.
Lemma str_lt_irrefl a : ~ str_lt a a.
Proof. induction a; cbn; [tauto|]. intros [H|[_ H]]; [lia|tauto]. Qed.
Lemma str_lt_total a : forall b, str_lt a b \/ a = b \/ str_lt b a.
Proof.
  induction a as [|x a IH]; intros [|y b]; cbn; auto.
  destruct (N.lt_trichotomy x y) as [H|[->|H]]; auto.
  destruct (IH b) as [H|[->|H]]; auto.
Qed.
Lemma str_le_total a b : str_leb a b = false -> str_le b a.
Proof.
  intros H. unfold str_le. destruct (str_lt_total a b) as [X|[X|X]]; auto.
  exfalso. assert (str_leb a b = true) by (apply str_leb_le; left; auto). congruence.
Qed.
Lemma str_le_trans a b c : str_le a b -> str_le b c -> str_le a c.
Proof. unfold str_le. intros [H| ->] [X| ->]; auto. left. eapply str_lt_trans; eauto. Qed.
Lemma str_le_antisym a b : str_le a b -> str_le b a -> a = b.
Proof. intros [H|H] [X|X]; auto. destruct (str_lt_irrefl a). eapply str_lt_trans; eauto. Qed.

Lemma ins_perm x l : Permutation (ins_str x l) (x :: l).
Proof.
  induction l as [|y t IH]; cbn; auto. destruct (str_leb x y); auto.
  rewrite IH. apply perm_swap.
Qed.
Lemma sort_perm l : Permutation (sort_strings l) l.
Proof. induction l as [|x l IH]; cbn; auto. rewrite ins_perm. now constructor. Qed.
Lemma ins_sorted x l : StronglySorted str_le l -> StronglySorted str_le (ins_str x l).
Proof.
  induction 1 as [|y t S IH F]; cbn; [repeat constructor|].
  destruct (str_leb x y) eqn:E.
  - apply str_leb_le in E. constructor; [now constructor|]. constructor; auto.
    rewrite Forall_forall in *. intros z Hz. eapply str_le_trans; eauto.
  - apply str_le_total in E. constructor; auto.
    rewrite Forall_forall in *. intros z Hz. apply (Permutation_in _ (ins_perm x t)) in Hz.
    destruct Hz as [<-|Hz]; auto.
Qed.
Lemma sort_sorted l : StronglySorted str_le (sort_strings l).
Proof. induction l as [|x l IH]; cbn; [constructor|]. now apply ins_sorted. Qed.
Lemma sorted_unique a : forall b, StronglySorted str_le a -> StronglySorted str_le b -> Permutation a b -> a = b.
Proof.
  induction a as [|x a IH]; intros b Sa Sb P.
  - apply Permutation_nil in P. now subst.
  - destruct b as [|y b]; [apply Permutation_sym, Permutation_nil in P; discriminate|].
    inversion Sa as [|? ? Sa' Fa]; inversion Sb as [|? ? Sb' Fb]; subst.
    rewrite Forall_forall in *.
    assert (x = y).
    { assert (Hx : In x (y :: b)) by (apply (Permutation_in _ P); cbn; auto).
      assert (Hy : In y (x :: a)) by (apply (Permutation_in _ (Permutation_sym P)); cbn; auto).
      cbn in Hx, Hy. destruct Hx as [Hx|Hx]; [auto|]. destruct Hy as [Hy|Hy]; [auto|].
      apply str_le_antisym; auto. }
    subst y. f_equal. apply IH; auto. now apply Permutation_cons_inv in P.
Qed.
Theorem sort_order_irrelevant a b : Permutation a b -> sort_strings a = sort_strings b.
Proof.
  intros P. apply sorted_unique; try apply sort_sorted. rewrite !sort_perm. exact P.
Qed.
Lemma sort_strict l : NoDup l -> StronglySorted str_lt (sort_strings l).
Proof.
  intros N. pose proof (sort_sorted l) as S.
  assert (ND : NoDup (sort_strings l)) by (apply (Permutation_NoDup (Permutation_sym (sort_perm l)) N)).
  induction S as [|x t S IH F]; constructor; inversion ND; subst; auto.
  rewrite Forall_forall in *. intros y Hy. destruct (F y Hy) as [L| ->]; tauto.
Qed.

(** ** the context *)
Inductive cop := CNext | CNextName | CReset | CAdd (k : gostring) (v : gval).
(** what a call answers: the key it moved to *)
Definition cstep (c : ctx) (o : cop) : ctx * option gostring :=
  match o with
  | CNext => let (c', b) := ctx_Next c in (c', if b then Some (c_picked c') else None)
  | CNextName => let (c', k) := ctx_NextName c in (c', if is_nil k then None else Some k)
  | CReset => (ctx_Reset c, None)
  | CAdd k v => (ctx_add c k v, None)
  end.
Fixpoint crun (c : ctx) (ops : list cop) : ctx * list (option gostring) :=
  match ops with
  | [] => (c, [])
  | o :: r => let (c1, a) := cstep c o in let (c2, as_) := crun c1 r in
              (c2, match o with CNext => a :: as_ | _ => as_ end)
  end.
Definition nexts (ops : list cop) : nat := length (filter (fun o => match o with CNext => true | _ => false end) ops).
(** only Next and additions *)
Definition plainops (ops : list cop) : Prop := Forall (fun o => match o with CNext | CAdd _ _ => True | _ => False end) ops.
(** the contexts a program can make: keys are distinct *)
Definition ctx_ok (c : ctx) : Prop := NoDup (map fst (c_vals c)).
Lemma ctx_ok_add c k v : ctx_ok c -> ctx_ok (ctx_add c k v).
Proof. apply mset_nodup. Qed.
Lemma ctx_ok_step c o : ctx_ok c -> ctx_ok (fst (cstep c o)).
Proof.
  intros H. destruct o; cbn [cstep].
  - unfold ctx_Next. destruct (match c_iter c with Some i => i | None => _ end); exact H.
  - unfold ctx_NextName. destruct (match c_iter c with Some i => i | None => _ end); exact H.
  - exact H.
  - now apply ctx_ok_add.
Qed.
Lemma ctx_ok_run ops : forall c, ctx_ok c -> ctx_ok (fst (crun c ops)).
Proof.
  induction ops as [|o r IH]; intros c H; cbn; auto.
  pose proof (ctx_ok_step c o H) as S. destruct (cstep c o) as [c1 a]. cbn in S.
  specialize (IH c1 S). destruct (crun c1 r). exact IH.
Qed.
Lemma ctx_ok_values str args : forall k c, ctx_ok c -> ctx_ok (ctx_values str k args c).
Proof.
  induction args as [|t r IH]; intros k c H; cbn; auto.
  destruct (is_nil k); auto. apply IH. now apply ctx_ok_add.
Qed.

Lemma crun_some ops : plainops ops -> forall c i, c_iter c = Some i ->
  snd (crun c ops) = firstn (nexts ops) (map Some i) ++ repeat None (nexts ops - length i) /\
  c_iter (fst (crun c ops)) = Some (skipn (nexts ops) i).
Proof.
  induction 1 as [|o r Ho _ IH]; intros c i E; [split; [reflexivity|exact E]|].
  unfold nexts. cbn [crun filter]. destruct o; try tauto; cbn [cstep length].
  - fold (nexts r). unfold ctx_Next. rewrite E. destruct i as [|k i].
    + destruct (IH (Ctx (c_vals c) (Some []) (c_picked c)) [] eq_refl) as [A B].
      destruct (crun _ r) as [c2 as_]. cbn [snd fst] in *. rewrite A, B. cbn [map length]. rewrite !firstn_nil, skipn_nil.
      rewrite Nat.sub_0_r. cbn. split; auto.
    + destruct (IH (Ctx (c_vals c) (Some i) k) i eq_refl) as [A B].
      destruct (crun _ r) as [c2 as_]. cbn [snd fst] in *. rewrite A, B. cbn. split; auto.
  - fold (nexts r). destruct (IH (ctx_add c k v) i E) as [A B]. destruct (crun _ r) as [c2 as_]. auto.
Qed.
(** Between two Resets, whatever is added in between, the calls of Next yield the keys present at the
    first of them in ascending order, each once, and then nothing for ever. *)
Theorem ctx_next_spec c ops : ctx_ok c -> plainops ops -> forall before,
  let c0 := fst (crun c before) in
  exists l, StronglySorted str_lt l /\ Permutation l (map fst (c_vals c0)) /\ length l = ctx_NamesCount c0 /\
    snd (crun (ctx_Reset c0) (CNext :: ops)) =
      firstn (S (nexts ops)) (map Some l) ++ repeat None (S (nexts ops) - length l).
Proof.
  intros K P before c0. assert (K0 : ctx_ok c0) by now apply ctx_ok_run.
  exists (sort_strings (map fst (c_vals c0))).
  split; [now apply sort_strict|]. split; [apply sort_perm|].
  split; [rewrite (Permutation_length (sort_perm _)); apply map_length|].
  cbn [crun cstep]. unfold ctx_Next, ctx_Reset. cbn [c_iter c_vals c_picked].
  destruct (sort_strings (map fst (c_vals c0))) as [|k i].
  - destruct (crun_some ops P (Ctx (c_vals c0) (Some []) []) [] eq_refl) as [A B].
    destruct (crun _ ops) as [c2 as_]. cbn [snd] in *. rewrite A. cbn [map]. rewrite !firstn_nil.
    cbn [length app]. rewrite !Nat.sub_0_r. reflexivity.
  - destruct (crun_some ops P (Ctx (c_vals c0) (Some i) k) i eq_refl) as [A B].
    destruct (crun _ ops) as [c2 as_]. cbn [snd] in *. rewrite A. reflexivity.
Qed.
(** what Next moved to is an entry of the context, with its current value *)
Theorem ctx_entry c c' : ctx_Next (ctx_Reset c) = (c', true) ->
  mget (c_vals c) (c_picked c') = Some (snd (ctx_Entry c')) /\ fst (ctx_Entry c') = c_picked c' /\
  c_vals c' = c_vals c.
Proof.
  unfold ctx_Next, ctx_Reset. cbn [c_iter c_vals c_picked].
  destruct (sort_strings (map fst (c_vals c))) as [|k i] eqn:E; [discriminate|].
  intros X. injection X as <-. cbn [c_vals c_picked]. unfold ctx_Entry. cbn [c_vals c_picked].
  assert (Hk : In k (map fst (c_vals c))).
  { apply (Permutation_in _ (sort_perm _)). rewrite E. cbn. auto. }
  destruct (mget (c_vals c) k) eqn:G; [auto|]. exfalso. clear - Hk G.
  induction (c_vals c) as [|[a b] m IH]; cbn in *; [tauto|]. destruct (str_eqb a k) eqn:X; [discriminate|].
  destruct Hk as [->|Hk]; auto. now rewrite str_eqb_refl in X.
Qed.
(** in general: an entry added before or after the iteration started is never removed *)
Theorem ctx_entry_run c ops k : ctx_ok c -> In k (map fst (c_vals c)) ->
  In k (map fst (c_vals (fst (crun c ops)))).
Proof.
  revert c. induction ops as [|o r IH]; intros c K H; cbn; auto.
  assert (H1 : In k (map fst (c_vals (fst (cstep c o))))).
  { destruct o; cbn [cstep].
    - unfold ctx_Next. destruct (match c_iter c with Some i => i | None => _ end); exact H.
    - unfold ctx_NextName. destruct (match c_iter c with Some i => i | None => _ end); exact H.
    - exact H.
    - apply mset_keys. auto. }
  pose proof (ctx_ok_step c o K) as K1. destruct (cstep c o) as [c1 a].
  specialize (IH c1 K1 H1). destruct (crun c1 r). exact IH.
Qed.
(** Next and NextName draw from one iterator: what one yields the other does not *)
Theorem ctx_shared_refuted :
  let c := ctx_add (ctx_add ctx_TODO (s2b "a"%string) GNil) (s2b "b"%string) GNil in
  snd (crun c [CNextName; CNext; CNext]) = [Some (s2b "b"%string); None].
Proof. vm_compute. reflexivity. Qed.
(** additions after the first Next are not visited *)
Theorem ctx_add_late_refuted :
  let c := ctx_add ctx_TODO (s2b "a"%string) GNil in
  snd (crun c [CNext; CAdd (s2b "b"%string) GNil; CNext]) = [Some (s2b "a"%string); None].
Proof. vm_compute. reflexivity. Qed.

(** WithValues of well-formed pairs *)
Theorem ctx_with_values str (ps : list (gostring * gval)) c :
  Forall (fun p => fst p <> []) ps -> forall k,
  ctx_ValueBy (ctx_WithValues str (flat_map (fun p => [GStr (fst p); snd p]) ps) c) k =
  match find (fun p => str_eqb (fst p) k) (rev ps) with Some p => snd p | None => ctx_ValueBy c k end.
Proof.
  unfold ctx_WithValues. intros F k. revert c. induction F as [|[a v] ps Ha _ IH]; intros c; [reflexivity|].
  cbn [flat_map app ctx_values is_nil fst snd]. cbn [fst] in Ha. destruct a as [|a0 a]; [congruence|].
  cbn [is_nil]. rewrite IH. cbn [rev].
  assert (FA : forall l, find (fun p : gostring * gval => str_eqb (fst p) k) (l ++ [(a0 :: a, v)]) =
     match find (fun p => str_eqb (fst p) k) l with Some p => Some p | None => if str_eqb (a0 :: a) k then Some (a0 :: a, v) else None end).
  { induction l as [|[x y] l IHl]; [reflexivity|]. cbn [app find fst]. destruct (str_eqb x k); [reflexivity|exact IHl]. }
  rewrite FA. unfold gostring in *. match goal with |- context [find ?f (rev ps)] => destruct (find f (rev ps)) end; auto.
  unfold ctx_ValueBy, ctx_add. cbn [c_vals]. rewrite mget_mset. destruct (str_eqb (a0 :: a) k); auto.
Qed.
(** an empty key, or one that is no string, shifts the pairs *)
Theorem ctx_with_values_refuted :
  let c := ctx_WithValues (fun _ => None) [GStr []; GStr (s2b "x"%string); GStr (s2b "k"%string); GStr (s2b "v"%string)] ctx_TODO in
  c_vals c = [(s2b "x"%string, GStr (s2b "k"%string))].
Proof. vm_compute. reflexivity. Qed.
(** the entry of a context: the name Next moved to last, with its value; NextName moves on without changing it *)
Definition ctx_inv (c : ctx) : Prop := forall i x, c_iter c = Some i -> In x i -> In x (map fst (c_vals c)).
Lemma ctx_inv_run ops : forall c, ctx_inv c -> ctx_inv (fst (crun c ops)).
Proof.
  induction ops as [|o r IH]; intros c H; cbn [crun]; [exact H|].
  assert (H1 : ctx_inv (fst (cstep c o))).
  { assert (J : forall x, In x (match c_iter c with Some i => i | None => sort_strings (map fst (c_vals c)) end) ->
      In x (map fst (c_vals c))).
    { intros x. destruct (c_iter c) as [i|] eqn:E; [now apply H|apply Permutation_in, sort_perm]. }
    destruct o; cbn [cstep]; unfold ctx_Next, ctx_NextName.
    - destruct (match c_iter c with Some i => i | None => _ end) as [|k i]; intros i' x E Hx; cbn in *; injection E as <-;
        [destruct Hx|apply J; now right].
    - destruct (match c_iter c with Some i => i | None => _ end) as [|k i]; intros i' x E Hx; cbn in *; injection E as <-;
        [destruct Hx|apply J; now right].
    - intros i x E. discriminate.
    - intros i x E Hx. cbn in *. apply mset_keys. left. now apply (H i). }
  destruct (cstep c o) as [c1 a]. specialize (IH c1 H1). destruct (crun c1 r). exact IH.
Qed.
Lemma no_empty_run ops : forall c, mget (c_vals c) [] = None -> (forall v, ~ In (CAdd [] v) ops) ->
  mget (c_vals (fst (crun c ops))) [] = None.
Proof.
  induction ops as [|o r IH]; intros c H F; cbn [crun]; [exact H|].
  assert (H1 : mget (c_vals (fst (cstep c o))) [] = None).
  { destruct o; cbn [cstep]; unfold ctx_Next, ctx_NextName;
      try (destruct (match c_iter c with Some i => i | None => _ end); exact H); try exact H.
    cbn [fst ctx_add c_vals]. rewrite mget_mset. destruct (str_eqb k []) eqn:E; [|exact H].
    destruct k; [|discriminate]. exfalso. apply (F v). now left. }
  assert (F1 : forall v, ~ In (CAdd [] v) r) by (intros v X; apply (F v); now right).
  destruct (cstep c o) as [c1 a]. specialize (IH c1 H1 F1). destruct (crun c1 r). exact IH.
Qed.
Theorem ctx_entry_any ops : let c := fst (crun ctx_TODO ops) in
  (forall c' k, cstep c CNext = (c', Some k) -> ctx_Entry c' = (k, ctx_ValueBy c k)) /\
  (forall c', cstep c CNext = (c', None) -> ctx_Entry c' = ctx_Entry c) /\
  ctx_Entry (fst (cstep c CNextName)) = ctx_Entry c /\
  ((forall v, ~ In (CAdd [] v) ops) -> ctx_Entry (fst (cstep c CReset)) = ([], GNil)).
Proof.
  intros c. assert (I : ctx_inv c) by (apply ctx_inv_run; intros i x E; discriminate).
  assert (J : forall x, In x (match c_iter c with Some i => i | None => sort_strings (map fst (c_vals c)) end) ->
    In x (map fst (c_vals c))).
  { intros x. destruct (c_iter c) as [i|] eqn:E; [now apply I|apply Permutation_in, sort_perm]. }
  cbn [cstep]. unfold ctx_Next, ctx_NextName. split; [|split; [|split]].
  - intros c' k. destruct (match c_iter c with Some i => i | None => _ end) as [|x i]; [discriminate|].
    intros E. injection E as <- E2. cbn in E2. subst x. unfold ctx_Entry, ctx_ValueBy. cbn [c_vals c_picked].
    specialize (J k (or_introl eq_refl)). destruct (mget (c_vals c) k) eqn:G; [reflexivity|]. exfalso. clear - J G.
    induction (c_vals c) as [|[a b] m IH]; cbn in *; [tauto|]. destruct (str_eqb a k) eqn:X; [discriminate|].
    destruct J as [->|J]; auto. now rewrite str_eqb_refl in X.
  - intros c'. destruct (match c_iter c with Some i => i | None => _ end); intros E; [|discriminate]. now injection E as <-.
  - destruct (match c_iter c with Some i => i | None => _ end); reflexivity.
  - intros F. unfold ctx_Entry. cbn [fst ctx_Reset c_vals c_picked]. unfold c. rewrite no_empty_run; [reflexivity|reflexivity|exact F].
Qed.
Theorem ctx_fresh str (ps : list (gostring * gval)) :
  Forall (fun p => fst p <> []) ps -> forall k,
  ctx_ValueBy (ctx_WithValues str (flat_map (fun p => [GStr (fst p); snd p]) ps) ctx_TODO) k =
  match find (fun p => str_eqb (fst p) k) (rev ps) with Some p => snd p | None => GNil end.
Proof. intros F k. now rewrite ctx_with_values. Qed.
