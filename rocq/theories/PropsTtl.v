(** The properties of time-to-live jobs (C46, C47): only statements.

    A [world] has trees, tries (handles on trees), managers and jobs; [wstep w c] is one step (an API
    call, a timer that rings, a goroutine that moves on), [wrun cs w] any schedule of them; [winv] is
    the invariant of all worlds reached from the empty one.  [calm ti k cs w]: along the schedule
    [cs] the key [k] stays in tree [ti], and every stored path below which [k] does not lie parts from
    it at an existing key (so the node of [k] is never split).  [cleared k t t']: data and tag at [k]
    are cleared, nothing else differs. *)
From Coq Require Import String.
From Coq Require Import List NArith ZArith Bool Arith Lia.
From Verif Require Import GoStr Utf8 Node NodeWf InsertProofs MatchProofs Trie TreeOps Spec Refine ApiRefine Reach Effect Derived
  Derived2 Derived3 Derived5 Ttl TtlProofs TtlRace TtlLive.
Import ListNotations.
Open Scope nat_scope.
Open Scope list_scope.

Ltac run := vm_compute; reflexivity.
Definition h0 : hdl := defaultHdl.
Definition hApp : hdl := withPrefix defaultHdl [s2b "app"%string].
Definition dotD : rune -> Prop := fun c => c = 46%N.
Definition same : gval -> gval := fun v => v.
Definition S_ (i : nat) (p : gostring) (z : Z) : cmd := COp i (OSet p (GInt z)).
(** arm, then let the timer ring and the goroutine take it *)
Definition fire (j : nat) : list cmd := [CEnter j false; CTick j].
Definition at_ (w : world) (ti : nat) (k : gostring) : option gval :=
  option_map a_data (wget w ti (runes k)).

(** ** every schedule keeps the invariant *)
Theorem C46_inv rf clone : forall cs w w', winv w -> wrun rf clone cs w = Ok w' -> winv w'.
Proof. exact (@wrun_inv rf clone). Qed.
Print Assumptions C46_inv.
Theorem C46_inv0 h : winv (world0 h).
Proof. exact (winv0 h). Qed.
Print Assumptions C46_inv0.

(** ** C46: an expiring TTL clears its own key only *)
(** a leaf: from SetTTL through any calm schedule to the expiry *)
Theorem C46_leaf rf clone  D w i th t path cb w1 k a cs w2 w3 :
  winv w -> nth_error (tries w) i = Some th -> nth_error (trees w) (th_tree th) = Some t ->
  plain_all D (entries t) -> D (hdelim (th_h th)) -> 0 < rf ->
  s_search (hdelim (th_h th)) (is_up (th_h th)) (entries t) (full (th_h th) path) = SFound k ->
  t_get t k = Some a -> a_leaf a = true ->
  wstep rf clone w (CSetTTL i path false cb) = Some (Ok w1) ->
  calm rf clone (th_tree th) k cs w1 -> wrun rf clone cs w1 = Ok w2 ->
  wstep rf clone w2 (CRun (length (jobs w))) = Some (Ok w3) ->
  forall ti s, nth_error (trees w2) ti = Some s ->
    exists s', nth_error (trees w3) ti = Some s' /\
      (if ti =? th_tree th then cleared k s s' else s' = s).
Proof. exact (@ttl_leaf rf clone D w i th t path cb w1 k a cs w2 w3). Qed.
Print Assumptions C46_leaf.
(** a branch: it and all keys below it are removed *)
Theorem C46_branch rf clone  D w i th t path cb w1 k a cs w2 x2 t2 n2 g th2 w3 :
  winv w -> nth_error (tries w) i = Some th -> nth_error (trees w) (th_tree th) = Some t ->
  plain_all D (entries t) -> D (hdelim (th_h th)) -> 0 < rf ->
  s_search (hdelim (th_h th)) (is_up (th_h th)) (entries t) (full (th_h th) path) = SFound k ->
  t_get t k = Some a -> a_leaf a = false -> k <> [] ->
  wstep rf clone w (CSetTTL i path false cb) = Some (Ok w1) ->
  calm rf clone (th_tree th) k cs w1 -> wrun rf clone cs w1 = Ok w2 ->
  nth_error (jobs w2) (length (jobs w)) = Some x2 ->
  nth_error (trees w2) (th_tree th) = Some t2 -> plain_all D (entries t2) ->
  In (k, n2) (ents [] (root t2)) -> runes (npathS n2) = k ->
  nth_error (mgrs w2) (j_mgr x2) = Some g -> nth_error (tries w2) (mg_trie g) = Some th2 ->
  th_tree th2 = th_tree th -> hprefix (th_h th2) = [] -> hmode (th_h th2) <> ModeUp -> D (hdelim (th_h th2)) ->
  wstep rf clone w2 (CRun (length (jobs w))) = Some (Ok w3) ->
  exists t3, nth_error (trees w3) (th_tree th) = Some t3 /\
    (forall k', t_get t3 k' = if has_prefix k k' then None else t_get t2 k') /\
    forall ti, ti <> th_tree th -> nth_error (trees w3) ti = nth_error (trees w2) ti.
Proof. exact (@ttl_branch rf clone D w i th t path cb w1 k a cs w2 x2 t2 n2 g th2 w3). Qed.
Print Assumptions C46_branch.
(** a leaf that left the tree in the meantime: its expiry changes nothing, even if the key is back *)
Theorem C46_gone rf clone  w j x t cs w2 x2 w3 :
  winv w -> nth_error (jobs w) j = Some x -> nth_error (trees w) (j_tree x) = Some t ->
  (forall n, In n (walk (root t)) -> nid n <> j_id x) ->
  wrun rf clone cs w = Ok w2 -> nth_error (jobs w2) j = Some x2 -> j_branch x2 = false ->
  wstep rf clone w2 (CRun j) = Some (Ok w3) ->
  trees w3 = trees w2.
Proof. exact (@ttl_gone rf clone w j x t cs w2 x2 w3). Qed.
Print Assumptions C46_gone.
(** each job acts at most once *)
Theorem C46_once rf clone  w j w1 cs w2 :
  wstep rf clone w (CRun j) = Some (Ok w1) -> wrun rf clone cs w1 = Ok w2 -> wstep rf clone w2 (CRun j) = None.
Proof. exact (@ttl_once rf clone w j w1 cs w2). Qed.
Print Assumptions C46_once.
(** no other step of the machinery changes a tree *)
Theorem C46_quiet rf clone w c w' :
  wstep rf clone w c = Some (Ok w') ->
  (forall i o, c <> COp i o) -> (forall j, c <> CRun j) ->
  forall ti t, nth_error (trees w) ti = Some t -> nth_error (trees w') ti = Some t.
Proof. exact (@ttl_quiet rf clone w c w'). Qed.
Print Assumptions C46_quiet.

Definition prog1 : list cmd :=
  [S_ 0 (s2b "app.logging.level"%string) 1; S_ 0 (s2b "app.logging.file"%string) 2; S_ 0 (s2b "zoo"%string) 3].
Definition wA : world := Eval vm_compute in match wrun 1 same prog1 (world0 h0) with Ok w => w | _ => world0 h0 end.
(** between arming and expiry: the key is stored again, a key below it and one beside it *)
Definition prog2 : list cmd :=
  [S_ 0 (s2b "app.logging.level"%string) 7; S_ 0 (s2b "app.logging.level.x"%string) 8; S_ 0 (s2b "app.logging.port"%string) 9] ++ fire 0.
Definition w1L : world := Eval vm_compute in
  match wstep 1 same wA (CSetTTL 0 (s2b "app.logging.level"%string) false None) with Some (Ok w) => w | _ => wA end.
Definition w2L : world := Eval vm_compute in match wrun 1 same prog2 w1L with Ok w => w | _ => wA end.
Definition w3L : world := Eval vm_compute in match wstep 1 same w2L (CRun 0) with Some (Ok w) => w | _ => wA end.
Definition tA : tr := Eval vm_compute in hd newTrie (trees wA).
Lemma wA_inv : winv wA.
Proof. apply (wrun_inv 1 same prog1 (world0 h0)); [apply winv0|run]. Qed.
Lemma tA_plain : plain_all dotD (entries tA).
Proof. intros d H k Hk. unfold dotD in H. subst d. vm_compute in Hk. repeat (destruct Hk as [<-|Hk]; [reflexivity|]). destruct Hk. Qed.
Example C46_leaf_case : winv wA /\ plain_all dotD (entries tA) /\
  s_search 46%N false (entries tA) (s2b "app.logging.level"%string) = SFound (s2b "app.logging.level"%string) /\
  option_map a_leaf (t_get tA (s2b "app.logging.level"%string)) = Some true /\
  wstep 1 same wA (CSetTTL 0 (s2b "app.logging.level"%string) false None) = Some (Ok w1L) /\
  calm 1 same 0 (s2b "app.logging.level"%string) prog2 w1L /\ wrun 1 same prog2 w1L = Ok w2L /\
  wstep 1 same w2L (CRun 0) = Some (Ok w3L) /\
  at_ w2L 0 (s2b "app.logging.level"%string) = Some (GInt 7) /\ at_ w3L 0 (s2b "app.logging.level"%string) = Some GNil /\
  at_ w3L 0 (s2b "app.logging.level.x"%string) = Some (GInt 8).
Proof.
  split; [exact wA_inv|]. split; [exact tA_plain|]. split; [run|]. split; [run|]. split; [run|]. split.
  2:{ split; [run|]. split; [run|]. split; [run|]. split; [run|]. run. }
  repeat (cbn [calm prog2 fire app]; match goal with |- context [wstep ?a ?b ?c ?d] =>
     let r := eval vm_compute in (wstep a b c d) in replace (wstep a b c d) with r by run end; cbv beta iota;
     split; [intros p Hp; vm_compute in Hp; (discriminate || (injection Hp as <-; (left; apply has_prefix_iff; run) || (right; vm_compute; discriminate)))|];
     split; [vm_compute; discriminate|]).
  exact I.
Qed.

(** a key stored after arming splits the node: SetTTL("app.logging.level"), Set("app.logging.file"),
    and the expiry removes both (the pointer of the job is now the fork "app.logging.") *)
Theorem C46_refuted_split : exists w1 w2,
  wrun 1 same ([S_ 0 (s2b "app.logging.level"%string) 1; CSetTTL 0 (s2b "app.logging.level"%string) false None;
                S_ 0 (s2b "app.logging.file"%string) 2] ++ fire 0) (world0 h0) = Ok w1 /\
  wstep 1 same w1 (CRun 0) = Some (Ok w2) /\
  at_ w1 0 (s2b "app.logging.file"%string) = Some (GInt 2) /\ at_ w2 0 (s2b "app.logging.file"%string) = None.
Proof. do 2 eexists. split; [run|]. split; [run|]. split; [run|]. run. Qed.
Print Assumptions C46_refuted_split.
(** the branch of a view with a prefix is not removed: the prefix is put in front twice *)
Theorem C46_refuted_prefix : exists w1 w2,
  wrun 1 same (prog1 ++ [CView 0 hApp; CSetTTL 1 (s2b "logging."%string) false None] ++ fire 0) (world0 h0) = Ok w1 /\
  wstep 1 same w1 (CRun 0) = Some (Ok w2) /\
  at_ w1 0 (s2b "app.logging.file"%string) = Some (GInt 2) /\ trees w2 = trees w1.
Proof. do 2 eexists. split; [run|]. split; [run|]. split; [run|]. run. Qed.
Print Assumptions C46_refuted_prefix.
(** a TTL armed on a branch of a copy (Dup) removes the branch from the original *)
Theorem C46_refuted_dup : exists w1 w2,
  wrun 1 same (prog1 ++ [CSetTTL 0 (s2b "zoo"%string) false None; CCopy 0;
                         CSetTTL 1 (s2b "app.logging."%string) false None] ++ fire 1) (world0 h0) = Ok w1 /\
  wstep 1 same w1 (CRun 1) = Some (Ok w2) /\
  at_ w1 0 (s2b "app.logging.file"%string) = Some (GInt 2) /\ at_ w2 0 (s2b "app.logging.file"%string) = None /\
  at_ w2 1 (s2b "app.logging.file"%string) = Some (GInt 2).
Proof. do 2 eexists. split; [run|]. split; [run|]. split; [run|]. split; [run|]. run. Qed.
Print Assumptions C46_refuted_dup.
(** storing a key anew does not disarm or renew its TTL: two SetTTLs, two jobs, the first one clears
    the value although the second asked for a later time *)
Theorem C46_no_renewal : exists w1 w2,
  wrun 1 same ([S_ 0 (s2b "k"%string) 1; CSetTTL 0 (s2b "k"%string) false None; S_ 0 (s2b "k"%string) 2;
                CSetTTL 0 (s2b "k"%string) false None] ++ fire 0) (world0 h0) = Ok w1 /\
  wstep 1 same w1 (CRun 0) = Some (Ok w2) /\
  at_ w1 0 (s2b "k"%string) = Some (GInt 2) /\ at_ w2 0 (s2b "k"%string) = Some GNil /\
  option_map j_elapsed (nth_error (jobs w2) 1) = Some false.
Proof. do 2 eexists. split; [run|]. split; [run|]. split; [run|]. split; [run|]. run. Qed.
Print Assumptions C46_no_renewal.

Definition w1B : world := Eval vm_compute in
  match wstep 1 same wA (CSetTTL 0 (s2b "app.logging."%string) false None) with Some (Ok w) => w | _ => wA end.
Definition w2B : world := Eval vm_compute in match wrun 1 same ([S_ 0 (s2b "app.logging.port"%string) 9] ++ fire 0) w1B with Ok w => w | _ => wA end.
Definition w3B : world := Eval vm_compute in match wstep 1 same w2B (CRun 0) with Some (Ok w) => w | _ => wA end.
Example C46_branch_case :
  s_search 46%N false (entries tA) (s2b "app.logging."%string) = SFound (s2b "app.logging."%string) /\
  option_map a_leaf (t_get tA (s2b "app.logging."%string)) = Some false /\
  wstep 1 same wA (CSetTTL 0 (s2b "app.logging."%string) false None) = Some (Ok w1B) /\
  calm 1 same 0 (s2b "app.logging."%string) ([S_ 0 (s2b "app.logging.port"%string) 9] ++ fire 0) w1B /\
  wrun 1 same ([S_ 0 (s2b "app.logging.port"%string) 9] ++ fire 0) w1B = Ok w2B /\
  (exists x2 t2 n2 g th2, nth_error (jobs w2B) 0 = Some x2 /\ nth_error (trees w2B) 0 = Some t2 /\
     plain_all dotD (entries t2) /\ In (s2b "app.logging."%string, n2) (ents [] (root t2)) /\
     runes (npathS n2) = s2b "app.logging."%string /\ nth_error (mgrs w2B) (j_mgr x2) = Some g /\
     nth_error (tries w2B) (mg_trie g) = Some th2 /\ th_tree th2 = 0 /\ hprefix (th_h th2) = [] /\ hmode (th_h th2) <> ModeUp) /\
  wstep 1 same w2B (CRun 0) = Some (Ok w3B) /\
  at_ w2B 0 (s2b "app.logging.port"%string) = Some (GInt 9) /\ at_ w3B 0 (s2b "app.logging.port"%string) = None /\
  at_ w3B 0 (s2b "zoo"%string) = Some (GInt 3).
Proof.
  split; [run|]. split; [run|]. split; [run|]. split.
  { repeat (cbn [calm fire app]; match goal with |- context [wstep ?a ?b ?c ?d] =>
     let r := eval vm_compute in (wstep a b c d) in replace (wstep a b c d) with r by run end; cbv beta iota;
     split; [intros p Hp; vm_compute in Hp; (discriminate || (injection Hp as <-; (left; apply has_prefix_iff; run) || (right; vm_compute; discriminate)))|];
     split; [vm_compute; discriminate|]).
    exact I. }
  split; [run|]. split.
  { do 5 eexists. split; [run|]. split; [run|]. split.
    { intros d H k Hk. unfold dotD in H. subst d. vm_compute in Hk. repeat (destruct Hk as [<-|Hk]; [reflexivity|]). destruct Hk. }
    split; [vm_compute; right; left; reflexivity|]. split; [run|]. split; [run|]. split; [run|]. split; [run|]. split; [run|]. discriminate. }
  split; [run|]. split; [run|]. split; [run|]. run.
Qed.
(** a leaf removed and stored again before its TTL expires *)
Example C46_gone_case : exists w1 t1 x1 w2 x2 w3,
  wrun 1 same [S_ 0 (s2b "k"%string) 1; CSetTTL 0 (s2b "k"%string) false None; COp 0 (ORemove (s2b "k"%string))] (world0 h0) = Ok w1 /\
  nth_error (trees w1) 0 = Some t1 /\ nth_error (jobs w1) 0 = Some x1 /\
  (forall n, In n (walk (root t1)) -> nid n <> j_id x1) /\
  wrun 1 same ([S_ 0 (s2b "k"%string) 5] ++ fire 0) w1 = Ok w2 /\ nth_error (jobs w2) 0 = Some x2 /\ j_branch x2 = false /\
  wstep 1 same w2 (CRun 0) = Some (Ok w3) /\ at_ w3 0 (s2b "k"%string) = Some (GInt 5).
Proof.
  do 6 eexists. split; [run|]. split; [run|]. split; [run|]. split.
  { intros n Hn. vm_compute in Hn. repeat (destruct Hn as [<-|Hn]; [vm_compute; discriminate|]). destruct Hn. }
  split; [run|]. split; [run|]. split; [run|]. split; [run|]. run.
Qed.

(** ** C47: Close stops the TTL jobs *)
Theorem C47_close rf clone  w i th m w1 cs w2 j x2 :
  nth_error (tries w) i = Some th -> th_present th = true -> th_ttl th = Some m ->
  wstep rf clone w (CClose i) = Some (Ok w1) -> wrun rf clone cs w1 = Ok w2 ->
  nth_error (jobs w2) j = Some x2 -> j_mgr x2 = m ->
  exists x, nth_error (jobs w) j = Some x /\ j_mgr x = m /\
    (j_stat x = JWait -> j_stat x2 = JOver /\ wstep rf clone w2 (CRun j) = None).
Proof. exact (@ttl_close rf clone w i th m w1 cs w2 j x2). Qed.
Print Assumptions C47_close.
Example C47_case : exists w0 w1 w2,
  wrun 1 same ([S_ 0 (s2b "k"%string) 1; CSetTTL 0 (s2b "k"%string) false None; CEnter 0 false]) (world0 h0) = Ok w0 /\
  option_map j_stat (nth_error (jobs w0) 0) = Some JWait /\
  wstep 1 same w0 (CClose 0) = Some (Ok w1) /\ wrun 1 same [CTick 0; CEnter 0 true; CRun 0] w1 = Ok w2 /\
  at_ w2 0 (s2b "k"%string) = Some (GInt 1) /\ option_map th_present (nth_error (tries w0) 0) = Some true.
Proof. do 3 eexists. split; [run|]. split; [run|]. split; [run|]. split; [run|]. split; [run|]. run. Qed.
(** a goroutine that reaches the select after Close and before its timer has rung never acts *)
Theorem C47_late rf clone  w i th m w1 cs w2 j x2 timer w3 cs' w4 :
  nth_error (tries w) i = Some th -> th_present th = true -> th_ttl th = Some m ->
  wstep rf clone w (CClose i) = Some (Ok w1) -> wrun rf clone cs w1 = Ok w2 ->
  nth_error (jobs w2) j = Some x2 -> j_mgr x2 = m -> j_elapsed x2 = false ->
  wstep rf clone w2 (CEnter j timer) = Some (Ok w3) -> wrun rf clone cs' w3 = Ok w4 ->
  wstep rf clone w4 (CRun j) = None.
Proof. exact (@ttl_late rf clone w i th m w1 cs w2 j x2 timer w3 cs' w4). Qed.
Print Assumptions C47_late.
Example C47_late_case : exists w0 w1 w2 w3,
  wrun 1 same ([S_ 0 (s2b "k"%string) 1; CSetTTL 0 (s2b "k"%string) false None]) (world0 h0) = Ok w0 /\
  wstep 1 same w0 (CClose 0) = Some (Ok w1) /\
  option_map (fun x => (j_mgr x, j_stat x, j_elapsed x)) (nth_error (jobs w1) 0) = Some (0, JStart, false) /\
  wstep 1 same w1 (CEnter 0 true) = Some (Ok w2) /\ wrun 1 same [CTick 0] w2 = Ok w3 /\
  option_map th_present (nth_error (tries w0) 0) = Some true /\ option_map th_ttl (nth_error (tries w0) 0) = Some (Some 0).
Proof. do 4 eexists. split; [run|]. split; [run|]. split; [run|]. split; [run|]. split; [run|]. split; run. Qed.
(** Close of the store does not close the trie *)
Theorem C47_refuted_store : exists w1 w2,
  wrun 1 same [S_ 0 (s2b "k"%string) 1; CSetTTL 0 (s2b "k"%string) false None; CEnter 0 false; CStoreClose 0] (world0 h0) = Ok w1 /\
  wrun 1 same [CTick 0; CRun 0] w1 = Ok w2 /\
  at_ w1 0 (s2b "k"%string) = Some (GInt 1) /\ at_ w2 0 (s2b "k"%string) = Some GNil.
Proof. do 2 eexists. split; [run|]. split; [run|]. split; [run|]. run. Qed.
Print Assumptions C47_refuted_store.
(** the timer has rung, the goroutine has not acted yet: it acts after Close has returned *)
Theorem C47_refuted_race : exists w1 w2,
  wrun 1 same ([S_ 0 (s2b "k"%string) 1; CSetTTL 0 (s2b "k"%string) false None] ++ fire 0 ++ [CClose 0]) (world0 h0) = Ok w1 /\
  wrun 1 same [CRun 0] w1 = Ok w2 /\
  at_ w1 0 (s2b "k"%string) = Some (GInt 1) /\ at_ w2 0 (s2b "k"%string) = Some GNil.
Proof. do 2 eexists. split; [run|]. split; [run|]. split; [run|]. run. Qed.
Print Assumptions C47_refuted_race.
(** ... or the goroutine had not reached the select yet: both cases are ready, either may be chosen *)
Theorem C47_refuted_select : exists w1 w2,
  wrun 1 same ([S_ 0 (s2b "k"%string) 1; CSetTTL 0 (s2b "k"%string) false None; CTick 0; CClose 0]) (world0 h0) = Ok w1 /\
  wrun 1 same [CEnter 0 true; CRun 0] w1 = Ok w2 /\
  at_ w1 0 (s2b "k"%string) = Some (GInt 1) /\ at_ w2 0 (s2b "k"%string) = Some GNil.
Proof. do 2 eexists. split; [run|]. split; [run|]. split; [run|]. run. Qed.
Print Assumptions C47_refuted_select.
(** a view has a manager of its own, which Close of the parent does not stop *)
Theorem C47_refuted_view : exists w1 w2,
  wrun 1 same [S_ 0 (s2b "app.k"%string) 1; S_ 0 (s2b "zoo"%string) 2; CSetTTL 0 (s2b "zoo"%string) false None; CView 0 hApp;
               CSetTTL 1 (s2b "k"%string) false None; CEnter 1 false; CClose 0] (world0 h0) = Ok w1 /\
  wrun 1 same [CTick 1; CRun 1] w1 = Ok w2 /\
  at_ w1 0 (s2b "app.k"%string) = Some (GInt 1) /\ at_ w2 0 (s2b "app.k"%string) = Some GNil.
Proof. do 2 eexists. split; [run|]. split; [run|]. split; [run|]. run. Qed.
Print Assumptions C47_refuted_view.

(** ** C122: SetTTL arms one timer and returns *)
(** every schedule keeps [served]: a trie whose flag is set has a running manager of its own *)
Theorem C122_served rf clone  : forall cs w w', served w -> wrun rf clone cs w = Ok w' -> served w'.
Proof. exact (@wrun_served rf clone ). Qed.
Print Assumptions C122_served.
Theorem C122_served0 h : served (world0 h).
Proof. exact (served0 h). Qed.
Print Assumptions C122_served0.
(** SetTTL returns and arms one timer, for the node of the key found; none below 200ns or if nothing is found *)
Theorem C122_arms rf clone  D w i th t path short cb :
  winv w -> served w -> nth_error (tries w) i = Some th -> nth_error (trees w) (th_tree th) = Some t ->
  plain_all D (entries t) -> D (hdelim (th_h th)) -> 0 < rf ->
  exists w1, wstep rf clone w (CSetTTL i path short cb) = Some (Ok w1) /\ trees w1 = trees w /\
  match s_search (hdelim (th_h th)) (is_up (th_h th)) (entries t) (full (th_h th) path) with
  | SFound k =>
      if short then jobs w1 = jobs w
      else exists x n, jobs w1 = jobs w ++ [x] /\ j_stat x = JStart /\ j_elapsed x = false /\ j_cb x = cb /\
             j_tree x = th_tree th /\ In (k, n) (ents [] (root t)) /\ j_id x = nid n
  | _ => w1 = w
  end.
Proof. exact (@ttl_arms rf clone D w i th t path short cb). Qed.
Print Assumptions C122_arms.
(** ... and the timer, unless its manager was closed, can always ring and its goroutine act *)
Theorem C122_expires rf clone  w j x g :
  winv w -> served w -> nth_error (jobs w) j = Some x -> j_stat x <> JOver ->
  nth_error (mgrs w) (j_mgr x) = Some g -> mg_done g = false ->
  exists w1 x1 r, wrun rf clone [CTick j; CEnter j true] w = Ok w1 /\ trees w1 = trees w /\
    nth_error (jobs w1) j = Some x1 /\ j_stat x1 = JFired /\ j_tree x1 = j_tree x /\ j_id x1 = j_id x /\
    wstep rf clone w1 (CRun j) = Some r /\ (j_branch x1 = false -> exists w2, r = Ok w2).
Proof. exact (@ttl_expires rf clone w j x g). Qed.
Print Assumptions C122_expires.
Example C122_case : exists w1 w2,
  wrun 1 same (prog1 ++ [CSetTTL 0 (s2b "zoo"%string) false None; CClose 0; CSetTTL 0 (s2b "zoo"%string) false (Some 5)]) (world0 h0) = Ok w1 /\
  length (jobs w1) = 2 /\ wrun 1 same [CSetTTL 0 (s2b "zoo"%string) true None] w1 = Ok w2 /\ length (jobs w2) = 2.
Proof. do 2 eexists. split; [run|]. split; [run|]. split; [run|]. run. Qed.

(** ** C123: SetTTL, Close and WithPrefix at the same time *)
(** the first SetTTL has set the flag and not yet s.ttls: another SetTTL, or the making of a view, dereferences nil *)
Theorem C123_refuted_nil : exists es, nth_error (goros (happens es (fresh [SCas; SCas]))) 1 = Some Dead.
Proof. exact two_first. Qed.
Print Assumptions C123_refuted_nil.
Theorem C123_refuted_view : exists es, nth_error (goros (happens es (fresh [SCas; VLoad]))) 1 = Some Dead.
Proof. exact first_and_view. Qed.
Print Assumptions C123_refuted_view.
(** Close stops the receiver between the test of the flag and the send: SetTTL never returns *)
Theorem C123_refuted_block : exists es m, forall es',
  nth_error (goros (happens es' (happens es (fresh [SCas; SCas; KCas])))) 1 = Some (SSend m).
Proof. destruct set_and_close as (es & m & H). exists es, m. intros es'. exact (race_stuck 1 m es' _ H). Qed.
Print Assumptions C123_refuted_block.

(** ** C124: ... after a first SetTTL has returned *)
(** nobody dereferences nil any more, Close or not *)
Theorem C124_alive es : forall x, alive x -> alive (happens es x).
Proof. exact (@race_alive es). Qed.
Print Assumptions C124_alive.
(** without Close every call can finish by itself at any time, and nobody dies *)
Theorem C124_steady m es x i p :
  steady m x -> nth_error (goros (happens es x)) i = Some p ->
  p <> Dead /\ nth_error (goros (happens (es ++ [Go i; Go i; Go i]) x)) i = Some Done.
Proof. exact (@race_steady m es x i p). Qed.
Print Assumptions C124_steady.
Example C124_case :
  let x := St (mem (happens [Go 0; Go 0; Go 0; Go 0] (fresh [SCas]))) [SCas; VLoad; SCas; SCas] in
  alive x /\ steady 0 x /\ nth_error (goros (happens [Go 0; Go 1; Go 2; Go 2; Go 1] x)) 2 = Some (SSend 0).
Proof.
  split; [split; [discriminate|]|split].
  - cbn. intuition discriminate.
  - repeat split; cbn; auto. repeat constructor.
  - reflexivity.
Qed.
