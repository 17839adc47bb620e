(** Statements of the properties C180 and C181. *)
From Coq Require Import String List NArith ZArith Bool Arith Lia.
From Verif Require Import GoStr Utf8 Node NodeWf MatchProofs Trie Store Spec Refine TreeOps ApiRefine Reach Effect Derived Derived2 Derived3 Derived4 Derived5 Heap HeapProofs HeapWalk HeapRace HeapGet HeapGetProofs HeapLin HeapWork HeapCalls
  Cvter HeapExport Torn TornProofs TornRace MemSpec MemSafe MemSafeProofs.
Import ListNotations.
Open Scope nat_scope.
Local Notation b s := (s2b s%string).

(** ** C180: values are two words *)
Theorem C180_reduction (T : Type) (ty : hnode -> T) (pre : hnode -> hnode -> hnode) (words : forall m n, ty m = ty n -> pre m n = n)
  (A : Type) (ps qs : list (prog A)) h sch : Forall2 (torn ty pre) ps qs -> steady T ty ps h ->
  exists sch', let (ps', hp) := schedule sch' ps h in let (qs', hq) := schedule sch qs h in
    (forall a, hn hp a = hn hq a) /\ (forall r, ha hp r = ha hq r) /\
    forall i x, nth_error qs' i = Some (Ret x) -> nth_error ps' i = Some (Ret x).
Proof.
  intros F S. destruct (torn_runs T ty pre words ps qs h sch F S) as (sch' & X). exists sch'. destruct (schedule sch' ps h) as [ps' hp].
  destruct (schedule sch qs h) as [qs' hq]. destruct X as [E M]. split; [apply E|]. split; [apply E|]. intros i x Hx.
  destruct (Forall2_nth _ _ _ _ _ M Hx) as (p' & Hp & Mp). apply mid_ret in Mp. now subst p'.
Qed.
Print Assumptions C180_reduction.
Theorem C180_any (T : Type) (tyv : gval -> T) (retype : gval -> gval -> gval) (words : forall v w, tyv v = tyv w -> retype v w = w)
  grow rf h0 R nx jobs gets dep qs sch : tree_in h0 R -> depth R <= dep ->
  (forall job k v, In job jobs -> In (k, v) job -> exists a, key_at R k a) ->
  (forall key m v, In (key, m) (ents [] R) -> some_set jobs R (nid m) v -> tyv v = tyv (ndata m)) ->
  (forall h p, In (h, p) gets -> exists r, search rf h (Tr R nx) (full h p) = Ok r) ->
  Forall2 (torn (any_types tyv) (any_words retype)) (map (writer grow (nid R)) jobs ++ map (reader rf dep (nid R)) gets) qs ->
  let (ps, m) := schedule sch qs h0 in
  (exists R', repr m R' /\ map shape (ents [] R') = map shape (ents [] R)) /\
  (forall p, In p ps -> p <> Die /\ p <> Spin) /\
  (forall i h p r x, nth_error gets i = Some (h, p) -> search rf h (Tr R nx) (full h p) = Ok r ->
     nth_error ps (length jobs + i) = Some (Ret x) -> exists q, x = Got q /\ answers (some_set jobs R) (hdelim h) r q).
Proof. exact (torn_get_any T tyv retype words grow rf h0 R nx jobs gets dep qs sch). Qed.
Print Assumptions C180_any.
Theorem C180_key (T : Type) (tyv : gval -> T) (retype : gval -> gval -> gval) (words : forall v w, tyv v = tyv w -> retype v w = w)
  grow rf D h0 t jobs gets dep qs sch : tree_in h0 (root t) -> plain_reach D t -> depth (root t) <= dep ->
  (forall job k v, In job jobs -> In (k, v) job -> exists a, key_at (root t) k a) ->
  (forall key m v, In (key, m) (ents [] (root t)) -> some_set jobs (root t) (nid m) v -> tyv v = tyv (ndata m)) ->
  (forall h p, In (h, p) gets -> D (hdelim h)) ->
  Forall2 (torn (any_types tyv) (any_words retype)) (map (writer grow (nid (root t))) jobs ++ map (reader (S rf) dep (nid (root t))) gets) qs ->
  let (ps, m) := schedule sch qs h0 in
  (forall p, In p ps -> p <> Die /\ p <> Spin) /\
  (forall i h p a x, nth_error gets i = Some (h, p) -> t_get t (runes (full h p)) = Some a ->
     nth_error ps (length jobs + i) = Some (Ret x) -> exists q, x = Got q /\
     q_branch q = negb (a_leaf a) /\ q_found q = (a_leaf a || ends_with (hdelim h) (runes (full h p))) /\
     (q_data q = (if a_has a then a_data a else GNil) \/ q_data q = a_data a \/
      exists job k, In job jobs /\ In (k, q_data q) job /\ runes k = runes (full h p))).
Proof. exact (torn_get_key T tyv retype words grow rf D h0 t jobs gets dep qs sch). Qed.
Print Assumptions C180_key.
Theorem C180_sets (T : Type) (tyv : gval -> T) (retype : gval -> gval -> gval) (words : forall v w, tyv v = tyv w -> retype v w = w)
  grow h0 R jobs qs sch : tree_in h0 R ->
  (forall job k v, In job jobs -> In (k, v) job -> exists a, key_at R k a) ->
  (forall key m v, In (key, m) (ents [] R) -> some_set jobs R (nid m) v -> tyv v = tyv (ndata m)) ->
  Forall2 (torn (any_types tyv) (any_words retype)) (map (p_sets grow (nid R)) jobs) qs ->
  let (ps, h) := schedule sch qs h0 in
  exists R', repr h R' /\ map shape (ents [] R') = map shape (ents [] R) /\
    (forall p, In p ps -> p <> Die /\ p <> Spin) /\
    (forall k m', In (k, m') (ents [] R') -> exists m, In (k, m) (ents [] R) /\
       (ndata m' = ndata m \/ some_set jobs R (nid m) (ndata m')) /\
       ((forall p, In p ps -> p = Ret tt) -> (exists v, some_set jobs R (nid m) v) -> some_set jobs R (nid m) (ndata m'))).
Proof. exact (torn_sets T tyv retype words grow h0 R jobs qs sch). Qed.
Print Assumptions C180_sets.

(** types as numbers; with the type word of an int, the data word of anything else is some number *)
Definition kind (v : gval) : nat :=
  match v with GNil => 0 | GBool _ => 1 | GInt _ => 2 | GStr _ => 3 | GOther _ => 4 | GList _ => 5 | GMap _ => 6 | GAMap _ => 7 | GMaps _ => 8 | GAMaps _ => 9 | GPkg _ _ _ _ => 10 end.
Definition mix (v w : gval) : gval := if kind v =? kind w then w else match v with GInt _ => GInt 824633720832 | _ => v end.
Lemma mix_same v w : kind v = kind w -> mix v w = w.
Proof. intros E. unfold mix. now rewrite E, Nat.eqb_refl. Qed.

(** an overwriting Set of a value of another type beside Get, which may get the old type with the new data *)
Definition h_old (v : gval) : heap := match run (p_sets no_room 0 [(b "a", v)]) newHeap with Ok (h, _) => h | _ => newHeap end.
Definition get_set (v : gval) : list (prog answer) := [writer no_room 0 [(b "a", v)]; reader 1 5 0 (defaultHdl, b "a")].
Definition half_way : list nat := repeat 1 16 ++ repeat 0 17 ++ [1].
Theorem C180_refuted (retype : gval -> gval -> gval) : (forall v, retype v v = v) -> forall old new,
  exists sch, exists q, let (ps, m) := schedule sch (map (tear (any_words retype)) (get_set new)) (h_old old) in
    nth_error ps 0 = Some (Ret Wrote) /\ nth_error ps 1 = Some (Ret (Got q)) /\ q_data q = retype old new.
Proof.
  intros S old new. exists half_way. eexists. 
  vm_compute. rewrite ?S. split; [reflexivity|]. split; reflexivity.
Qed.
Print Assumptions C180_refuted.

(** only the number 5 and a string are ever stored; Get returns another number *)
Example C180_refuted_ex : exists sch q, let (ps, m) := schedule sch (map (tear (any_words mix)) (get_set (GStr (b "x")))) (h_old (GInt 5)) in
    nth_error ps 1 = Some (Ret (Got q)) /\ q_data q = GInt 824633720832.
Proof.
  destruct (C180_refuted mix (fun v => mix_same v v eq_refl) (GInt 5) (GStr (b "x"))) as (sch & q & X). exists sch, q.
  destruct (schedule sch _ _) as [ps m]. destruct X as (_ & A & B). split; [exact A|]. rewrite B. reflexivity.
Qed.
(** strings only: the first reader stops between the two words of the value, and gets a value that was stored *)
Definition t_abc : tr := Tr r_abc 4.
Definition dotD : rune -> Prop := fun c => c = 46%N.
Definition hist : list (hdl * op) := map (fun kv => (defaultHdl, OSet (fst kv) (snd kv))) abc.
Definition jobs : list (list (gostring * gval)) := [[(b "a", GStr (b "7")); (b "b", GStr (b "8"))]; [(b "a", GStr (b "9"))]].
Definition gets : list (hdl * gostring) := [(defaultHdl, b "a"); (defaultHdl, b "zoo")].
Definition split_up : list (prog answer) := map (tear (any_words mix)) (map (writer no_room 0) jobs ++ map (reader 1 2 0) gets).
Example C180_ex : tree_in h_abc (root t_abc) /\ plain_reach dotD t_abc /\ depth (root t_abc) <= 2 /\
  (forall job k v, In job jobs -> In (k, v) job -> exists a, key_at (root t_abc) k a) /\
  (forall key m v, In (key, m) (ents [] (root t_abc)) -> some_set jobs (root t_abc) (nid m) v -> kind v = kind (ndata m)) /\
  (forall h p, In (h, p) gets -> dotD (hdelim h)) /\
  Forall2 (torn (any_types kind) (any_words mix)) (map (writer no_room (nid (root t_abc))) jobs ++ map (reader 1 2 (nid (root t_abc))) gets) split_up /\
  let ps := fst (schedule (repeat 2 16 ++ repeat 0 40 ++ repeat 1 40 ++ repeat 3 40 ++ [2]) split_up h_abc) in
  nth_error ps 2 = Some (Ret (Got (QRes (GStr (b "9")) false true []))) /\
  nth_error ps 3 = Some (Ret (Got (QRes GNil false false []))).
Proof.
  split; [exact abc_in|]. split; [|split; [vm_compute; lia|split; [|split; [|split; [|split; [|split; vm_compute; reflexivity]]]]]].
  - destruct (t_run 1 hist newTrie) as [[t outs]| |] eqn:E; [|vm_compute in E; discriminate..].
    apply (plain_reach_hist dotD 0 hist t_abc outs).
    + repeat (apply Forall_cons; [split; [reflexivity|intros d Hd; unfold dotD in Hd; subst d; vm_compute; reflexivity || exact I]|]).
      apply Forall_nil.
    + rewrite E. vm_compute in E. injection E as <- <-. reflexivity.
  - assert (A : key_at (root t_abc) (b "a") 1) by (eexists; split; [vm_compute; auto|reflexivity]).
    assert (B : key_at (root t_abc) (b "b") 2) by (eexists; split; [vm_compute; auto|reflexivity]).
    intros job k v [<-|[<-|[]]] H; [destruct H as [X|[X|[]]]|destruct H as [X|[]]]; injection X as <- <-; eauto.
  - intros key m v Hm (job & k & Hj & Hk & (m' & Hm' & Em)).
    assert (V : kind v = 3) by (destruct Hj as [<-|[<-|[]]]; [destruct Hk as [X|[X|[]]]|destruct Hk as [X|[]]]; injection X as <- <-; reflexivity).
    assert (K : runes k <> []) by (destruct Hj as [<-|[<-|[]]]; [destruct Hk as [X|[X|[]]]|destruct Hk as [X|[]]]; injection X as <- <-; vm_compute; discriminate).
    rewrite V. clear V Hj Hk. vm_compute in Hm. vm_compute in Hm'.
    repeat (destruct Hm as [X|Hm]; [injection X as <- <-; try reflexivity|]); [|easy]. 
    repeat (destruct Hm' as [X|Hm']; [injection X as Y Z; subst m'; try discriminate Em; try (exfalso; apply K; symmetry; exact Y)|]); destruct Hm'.
  - intros h p [X|[X|[]]]; injection X as <- <-; reflexivity.
  - unfold split_up. change (nid (root t_abc)) with 0. generalize (map (writer no_room 0) jobs ++ map (reader 1 2 0) gets). intros l.
    induction l; constructor; [apply torn_tear|assumption].
Qed.

(** ** C181: the goroutines stay in memory *)
Theorem C181_memory grow order clone rf dep rt jobs h sch : sound h -> pointer h rt ->
  let (ps, m) := schedule sch (map (p_deeds grow order clone rf dep rt) jobs) h in sound m /\ forall p, In p ps -> legal m p.
Proof. exact (deeds_in_memory grow order clone rf dep rt jobs h sch). Qed.
Print Assumptions C181_memory.
Theorem C181_start grow order clone rf dep jobs sch :
  let (ps, m) := schedule sch (map (p_deeds grow order clone rf dep 0) jobs) newHeap in sound m /\ forall p, In p ps -> legal m p.
Proof. exact (deeds_from_new grow order clone rf dep jobs sch). Qed.
Print Assumptions C181_start.
(** one that sets two keys and copies the tree, two that remove a key each and look around; the last panics (slice bounds out of range) *)
Definition three : list (list deed) :=
  [[Calls (It (Op (DoSet defaultHdl (b "a") (GInt 1)))); Calls (It (Op (DoSet defaultHdl (b "b") (GInt 2)))); Copies];
   [Calls (It (Rm defaultHdl (b "a"))); Looks defaultHdl []];
   [Calls (It (Rm defaultHdl (b "b"))); Maps defaultHdl [] (HOpts false true None)]].
Definition ends {A} (p : prog A) : nat := match p with Ret _ => 1 | Die => 2 | Spin => 3 | _ => 0 end.
Example C181_ex : exists sch, map ends (fst (schedule sch (map (p_deeds no_room (fun m => m) (fun v => v) 1 5 0) three) newHeap)) = [1; 1; 2].
Proof. exists (repeat 0 16 ++ repeat 2 13 ++ repeat 1 40 ++ repeat 2 60 ++ repeat 0 60). vm_compute. reflexivity. Qed.

(** slices are read word by word: the array from before, the length from after a Set of another goroutine *)
Definition get_new : list (prog unit) := map (p_deeds no_room (fun m => m) (fun v => v) 1 5 0)
  [[Calls (It (Op (DoSet defaultHdl (b "b") (GInt 2))))]; [Calls (It (Op (DoGet defaultHdl (b "c"))))]].
Definition elem {A} (p : option (prog A)) : option (nat * nat) := match p with Some (GetA r i _) => Some (r, i) | _ => None end.
Lemma elem_at {A} (p : option (prog A)) r i : elem p = Some (r, i) -> exists k, p = Some (GetA r i k).
Proof. destruct p as [[]|]; cbn; intros X; try discriminate. injection X as <- <-. eauto. Qed.
Definition set_one : list (prog unit) := map (p_deeds no_room (fun m => m) (fun v => v) 1 5 0) [[Calls (It (Op (DoSet defaultHdl (b "a") (GInt 1))))]].
Definition h_one : heap := snd (schedule (repeat 0 40) set_one newHeap).
Theorem C181_refuted : sound h_one /\ exists sch r i k, let (ps, m) := schedule sch (map (tear slice_words) get_new) h_one in
  nth_error ps 1 = Some (GetA r i k) /\ length (ha m r) <= i.
Proof.
  split.
  { pose proof (C181_start no_room (fun m => m) (fun v => v) 1 5 [[Calls (It (Op (DoSet defaultHdl (b "a") (GInt 1))))]] (repeat 0 40)) as X.
    unfold h_one, set_one. destruct (schedule (repeat 0 40) _ newHeap) as [ps m]. exact (proj1 X). }
  set (sch := repeat 1 5 ++ repeat 0 40 ++ repeat 1 8).
  assert (E : elem (nth_error (fst (schedule sch (map (tear slice_words) get_new) h_one)) 1) = Some (1, 1)) by (vm_compute; reflexivity).
  assert (L : length (ha (snd (schedule sch (map (tear slice_words) get_new) h_one)) 1) = 1) by (vm_compute; reflexivity).
  destruct (elem_at _ _ _ E) as (k & K). exists sch, 1, 1, k. destruct (schedule sch _ h_one) as [ps m]. cbn [fst snd] in K, L. rewrite L. auto.
Qed.
Print Assumptions C181_refuted.
