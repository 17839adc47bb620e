(** The reads of a store (C242), the must-forms of sizes (C105) and times (C106): only statements.

    [views hist]: the calls of the history with the view each goes through; [s_run], [s_step]: the store as one map;
    [plain_reach D t]: the tree is reached by calls with delimiters in [D] that store no route patterns;
    [t_get t k]: the attributes at the key [k]; [fails parse l s]: the layout [l] does not fit the text [s]. *)
From Coq Require Import String.
From Coq Require Import List NArith ZArith Bool Arith Lia.
From Verif Require Import GoStr Utf8 Node Trie Spec Refine ApiRefine Reach Derived Derived2 Derived3 Derived5 Cvter CvterProofs
  Getters GetterProofs Store StoreProofs ReadProofs.
Import ListNotations.
Open Scope nat_scope.
Open Scope list_scope.

Ltac run := vm_compute; reflexivity.
Definition rb (s : string) : gostring := s2b s.
Definition dotD : rune -> Prop := fun c => c = 46%N.
Definition hApp : hdl := withPrefix defaultHdl [rb "app"].
Definition rhist : list (hdl * op) :=
  [(defaultHdl, OSet (rb "app.size") (GStr (rb "12 KiB"))); (hApp, OSet (rb "level") (GInt 2));
   (hApp, OSet (rb "none") (GStr []))].
Definition rt : tr := Eval vm_compute in match t_run 1 rhist newTrie with Ok (t, _) => t | _ => newTrie end.
Definition routs : list out := Eval vm_compute in match t_run 1 rhist newTrie with Ok (_, o) => o | _ => [] end.
Lemma rhist_plain : plain_hist dotD rhist.
Proof.
  repeat (apply Forall_cons; [split; [reflexivity|intros d H; unfold dotD in H; subst d; vm_compute; reflexivity || exact I]|]).
  apply Forall_nil.
Qed.
Lemma rt_run : t_run 1 rhist newTrie = Ok (rt, routs).
Proof. run. Qed.
Lemma rt_plain : plain_reach dotD rt.
Proof. exact (plain_reach_hist dotD 0 rhist rt routs rhist_plain rt_run). Qed.
(** a store whose prefix is "app", with a handler for changes *)
Definition sApp : store := Sto hApp false [] [Some 4] [] [] None false false.
Definition sRoot : store := Sto defaultHdl false [] [] [] [] None false false.

(** ** C242: Get, MustGet and Has of a store *)
Theorem C242_answers D rf hist t outs s path :
  plain_hist D hist -> t_run (S rf) hist newTrie = Ok (t, outs) -> D (hdelim (so_h s)) ->
  let m := fst (s_run (views hist) s_init) in
  let v := view_of (so_h s) in
  exists x found y has,
    st_Get (S rf) s t path = Ok (x, found) /\ snd (s_step v m (OGet path)) = RGet x found /\
    st_MustGet (S rf) s t path = Ok y /\ snd (s_step v m (OMustGet path)) = RMust y /\
    st_Has (S rf) s t path = Ok has /\ snd (s_step v m (OHas path)) = RBool has.
Proof. exact (@reads_answer D rf hist t outs s path). Qed.
Print Assumptions C242_answers.
(** a key that exists *)
Theorem C242_present D rf s t path a :
  plain_reach D t -> D (hdelim (so_h s)) -> t_get t (runes (full (so_h s) path)) = Some a ->
  let x := if a_has a then a_data a else GNil in
  st_Get (S rf) s t path = Ok (x, a_leaf a || ends_with (hdelim (so_h s)) (runes (full (so_h s) path))) /\
  st_MustGet (S rf) s t path = Ok x /\ st_Has (S rf) s t path = Ok true.
Proof. exact (@reads_present D rf s t path a). Qed.
Print Assumptions C242_present.
(** after a Set of the store, whether it is loading or not and whoever listens: its own value is read, with found unless
    there are longer keys; every other key answers as before, through every store on the tree *)
Theorem C242_set D rf s t path v t' id old es :
  plain_reach D t -> D (hdelim (so_h s)) -> op_plain D (full (so_h s)) (OSet path v) -> blank_free (full (so_h s) path) ->
  st_Set (S rf) s t path v = Ok (t', id, old, es) ->
  plain_reach D t' /\
  st_Get (S rf) s t' path = Ok (v,
    match t_get t (runes (full (so_h s) path)) with
    | Some a => a_leaf a
    | None => negb (existsb (sprefix (runes (full (so_h s) path))) (skeys (entries t)))
    end || ends_with (hdelim (so_h s)) (runes (full (so_h s) path))) /\
  st_MustGet (S rf) s t' path = Ok v /\ st_Has (S rf) s t' path = Ok true /\
  forall s2 p a, D (hdelim (so_h s2)) -> t_get t (runes (full (so_h s2) p)) = Some a ->
    runes (full (so_h s2) p) <> runes (full (so_h s) path) ->
    st_Get (S rf) s2 t' p = st_Get (S rf) s2 t p /\ st_MustGet (S rf) s2 t' p = st_MustGet (S rf) s2 t p /\
    st_Has (S rf) s2 t' p = Ok true.
Proof. exact (@st_set_reads D rf s t path v t' id old es). Qed.
Print Assumptions C242_set.
Example C242_case : plain_hist dotD rhist /\ t_run 1 rhist newTrie = Ok (rt, routs) /\ dotD (hdelim (so_h sApp)) /\
  op_plain dotD (full hApp) (OSet (rb "level") (GInt 7)) /\ blank_free (full hApp (rb "level")) /\
  (exists a, t_get rt (runes (full (so_h sRoot) (rb "app.size"))) = Some a) /\
  st_Get 1 sApp rt (rb "level") = Ok (GInt 2, true) /\ st_Has 1 sApp rt (rb "lev") = Ok false /\
  st_Get 1 sRoot rt (rb "app") = Ok (GNil, true) /\ st_MustGet 1 sRoot rt (rb "level") = Ok GNil /\
  exists t' id, st_Set 1 sApp rt (rb "level") (GInt 7) = Ok (t', id, GInt 2, [EChange 4 (rb "level") (GInt 7) (GInt 2) true]) /\
    st_Get 1 sApp t' (rb "level") = Ok (GInt 7, true) /\ st_Get 1 sRoot t' (rb "app.size") = Ok (GStr (rb "12 KiB"), true).
Proof.
  split; [exact rhist_plain|]. split; [exact rt_run|]. split; [reflexivity|].
  split; [intros d H; unfold dotD in H; subst d; run|]. split; [vm_compute; intuition discriminate|].
  split; [eexists; run|]. split; [run|]. split; [run|]. split; [run|]. split; [run|].
  do 2 eexists. split; [run|]. split; run.
Qed.

(** ** C105: MustKibiBytes and MustKiloBytes *)
Theorem C105_must D rf from str h t path defs :
  plain_reach D t -> D (hdelim h) ->
  let q := s_query (hdelim h) (entries t) (s_search (hdelim h) (is_up h) (entries t) (full h path)) in
  mustBytes (getBytes (S rf) from str h t path defs) =
  (if snd q then
     match str (fst (fst q)) with
     | [] => Ok (last defs 0%N)
     | c :: s => from (c :: s)
     end
   else Ok (last defs 0%N)).
Proof. exact (@mustBytes_exact D rf from str h t path defs). Qed.
Print Assumptions C105_must.
Definition rstr (v : gval) : gostring := match v with GStr s => s | _ => [] end.
Example C105_must_case PF : plain_reach dotD rt /\
  mustBytes (GetKibiBytes 1 PF rstr hApp rt (rb "size") [5%N]) = Ok 12288%N /\
  mustBytes (GetKibiBytes 1 PF rstr hApp rt (rb "none") [5%N; 6%N]) = Ok 6%N /\
  mustBytes (GetKiloBytes 1 PF rstr hApp rt (rb "other") [5%N; 6%N]) = Ok 6%N.
Proof. split; [exact rt_plain|]. split; [run|]. split; run. Qed.

(** ** C106: MustSmartParseTime: the first layout that fits, the zero time if none does *)
Theorem C106_must {time err} (zero : time) (parse : gostring -> gostring -> time + err) known s t :
  MustSmartParseTime time err zero parse known s = t <->
  (exists ls1 l ls2, known = ls1 ++ l :: ls2 /\ Forall (fun x => fails parse x s) ls1 /\ parse l s = inl t) \/
  (Forall (fun x => fails parse x s) known /\ t = zero).
Proof. exact (@must_time_first time err zero parse known s t). Qed.
Print Assumptions C106_must.
Definition rparse (l s : gostring) : nat + unit := if List.length l =? List.length s then inl (List.length l) else inr tt.
Example C106_must_case :
  MustSmartParseTime nat unit 0 rparse [rb "2006-01-02"; rb "01/02/2006"; rb "15:04"] (rb "03:04") = 5 /\
  MustSmartParseTime nat unit 0 rparse [rb "2006-01-02"; rb "15:04"] (rb "07") = 0 /\
  Forall (fun x => fails rparse x (rb "07")) [rb "2006-01-02"; rb "15:04"].
Proof. split; [run|]. split; [run|]. repeat constructor; exists tt; run. Qed.
