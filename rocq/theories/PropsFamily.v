(** Many handles and copies of a store (C241): only statements.

    [wrun rf clone cs hs ts]: the program [cs] over the handles [hs] (settings, and the number of their tree) and the trees
    [ts]: handles and trees at the end, and of each call on the data the handle and the answer.  [story x cs hs n]: the calls
    on the data that [cs] makes through handles of the tree [x], each with the settings its handle has then.  [on hs x i]: the
    handle [i] is one of the tree [x].  [housed hs n]: all handles have one of the [n] trees.  [t_run] is that of C02. *)
From Coq Require Import String.
From Coq Require Import List NArith ZArith Bool Arith Lia.
From Verif Require Import GoStr Node Trie Spec Refine ApiRefine Handles HandlesProofs Family FamilyProofs.
Import ListNotations.
Open Scope nat_scope.
Open Scope list_scope.

Ltac run := vm_compute; reflexivity.
Definition fb (x : string) : gostring := s2b x.

(** ** C241: a tree is what the calls through its own handles make of it *)
Theorem C241_family rf clone cs hs ts hs' ts' outs x t : housed hs (length ts) ->
  wrun rf clone cs hs ts = Ok (hs', ts', outs) -> nth_error ts x = Some t ->
  exists t', nth_error ts' x = Some t' /\
    t_run rf (story x cs hs (length ts)) t = Ok (t', map snd (filter (fun e => on hs' x (fst e)) outs)).
Proof. exact (@family cs rf clone hs ts hs' ts' outs x t). Qed.
Print Assumptions C241_family.
Theorem C241_dup rf clone i cs hs ts hs' ts' outs h x t : housed hs (length ts) ->
  wrun rf clone (WH (CDup i) :: cs) hs ts = Ok (hs', ts', outs) -> nth_error hs i = Some (h, x) -> nth_error ts x = Some t ->
  exists t', nth_error ts' (length ts) = Some t' /\
    t_run rf (story (length ts) cs (hs ++ [(h, length ts)]) (S (length ts))) (Dup clone t) =
      Ok (t', map snd (filter (fun e => on hs' (length ts) (fst e)) outs)).
Proof. exact (@family_dup rf clone i cs hs ts hs' ts' outs h x t). Qed.
Print Assumptions C241_dup.
Theorem C241_still rf clone cs hs ts hs' ts' outs x t : housed hs (length ts) ->
  wrun rf clone cs hs ts = Ok (hs', ts', outs) -> nth_error ts x = Some t -> story x cs hs (length ts) = [] -> nth_error ts' x = Some t.
Proof. exact (@family_still rf clone cs hs ts hs' ts' outs x t). Qed.
Print Assumptions C241_still.
(** of a new store: what its handles answer together is what one map of keys answers (C02), if the keys written are plain *)
Theorem C241_map rf clone D h cs hs' ts' outs : wrun (S rf) clone cs [(h, 0)] [newTrie] = Ok (hs', ts', outs) ->
  plain_hist D (story 0 cs [(h, 0)] 1) ->
  let m := s_run (views (story 0 cs [(h, 0)] 1)) s_init in
  map snd (filter (fun e => on hs' 0 (fst e)) outs) = snd m /\ exists t', nth_error ts' 0 = Some t' /\ abs (root t') (fst m).
Proof. exact (@family_map rf clone D h cs hs' ts' outs). Qed.
Print Assumptions C241_map.
(** the settings are those of C239: calls on the data do not touch them; only Dup makes a tree, and a handle keeps its own.
    [makers cs]: the calls of [cs] that are no calls on the data; [dups c]: the call is a Dup *)
Theorem C241_settings rf clone cs hs ts hs' ts' outs : wrun rf clone cs hs ts = Ok (hs', ts', outs) ->
  hrun (makers cs) (map fst hs) = Some (map fst hs').
Proof. exact (@family_settings rf clone cs hs ts hs' ts' outs). Qed.
Print Assumptions C241_settings.
Theorem C241_number rf clone cs hs ts hs' ts' outs : housed hs (length ts) -> wrun rf clone cs hs ts = Ok (hs', ts', outs) ->
  length ts' = length ts + length (filter dups cs) /\ housed hs' (length ts') /\
  forall i x h, nth_error hs i = Some (h, x) -> exists h', nth_error hs' i = Some (h', x).
Proof. exact (@family_number rf clone cs hs ts hs' ts' outs). Qed.
Print Assumptions C241_number.
(** a view, a copy, and writes through both: the view sees what was written before the copy and by itself *)
Definition f_calls : list wcall :=
  [WOp 0 (OSet (fb "app.a") (GInt 1)); WH (CWith 0 [fb "app"]); WH (CDup 1); WOp 2 (OSet (fb "a") (GInt 2));
   WOp 1 (OSet (fb "b") (GInt 3)); WH (CSetPrefix 0 [fb "x"]); WOp 1 (OGet (fb "a")); WOp 2 (OGet (fb "a")); WOp 2 (OHas (fb "b"));
   WOp 0 (OHas (fb "app.a"))].
Example C241_case : housed [(defaultHdl, 0)] 1 /\
  exists hs ts outs, wrun 1 (fun v => v) f_calls [(defaultHdl, 0)] [newTrie] = Ok (hs, ts, outs) /\
    length hs = 3 /\ length ts = 2 /\ map snd hs = [0; 0; 1] /\ length (story 0 f_calls [(defaultHdl, 0)] 1) = 4 /\
    length (story 1 f_calls [(defaultHdl, 0)] 1) = 3 /\
    exists o1 o2, outs = [(0, ROld GNil); (2, ROld (GInt 1)); (1, ROld GNil); (1, o1); (2, o2); (2, RBool false); (0, RBool false)] /\ o1 <> o2.
Proof.
  split; [repeat constructor|]. do 3 eexists. split; [run|]. split; [run|]. split; [run|]. split; [run|]. split; [run|]. split; [run|].
  do 2 eexists. split; [run|discriminate].
Qed.
Example C241_map_ex : plain_hist (fun c => c = 46%N) (story 0 f_calls [(defaultHdl, 0)] 1).
Proof.
  unfold plain_hist. vm_compute story.
  repeat (apply Forall_cons; [split; [reflexivity|intros d ->; vm_compute; reflexivity || exact I]|]). apply Forall_nil.
Qed.
