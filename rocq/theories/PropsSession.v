(** Programs of store calls (C243, C244): only statements.

    A program is a list of calls, each with the store it goes through, as it is then ([so_h]: prefix, delimiter and mode;
    [so_loading]; handlers; parents).  [st_run]: the code; [m_run]: one map, with a rule for what is answered and which
    handlers are called; [prog_plain D]: delimiters are in [D] and no route patterns are stored; [t_get t k], [sget m k]:
    the attributes at the key [k].  [same_calls p q]: the same calls through the same views; loading flags, handlers and
    parents may differ.  [unheard]: an answer without the handler calls; [unmark]: attributes without the modified mark. *)
From Coq Require Import String.
From Coq Require Import List NArith ZArith Bool Arith Lia.
From Verif Require Import GoStr Utf8 Node Trie Spec Refine ApiRefine Reach Derived Store StoreProofs Session SessionProofs SessionQuiet.
Import ListNotations.
Open Scope nat_scope.
Open Scope list_scope.

Ltac run := vm_compute; reflexivity.
Definition pb (s : string) : gostring := s2b s.
Definition dotD : rune -> Prop := fun c => c = 46%N.

(** ** C243: answers, handler calls and the final store of any program *)
Theorem C243_session D rf prog : prog_plain D prog ->
  exists t, st_run (S rf) prog newTrie = Ok (t, snd (m_run prog s_init)) /\
    forall k, t_get t k = sget (fst (m_run prog s_init)) k.
Proof. exact (@session D rf prog). Qed.
Print Assumptions C243_session.
(** from any store that was reached before *)
Theorem C243_from D rf prog t : plain_reach D t -> prog_plain D prog ->
  exists t', st_run (S rf) prog t = Ok (t', snd (m_run prog (entries t))) /\
    forall k, t_get t' k = sget (fst (m_run prog (entries t))) k.
Proof. exact (@session_from D rf prog t). Qed.
Print Assumptions C243_from.

(** a store with handlers 1 on change, 2 on new, 3 on delete, a child with the prefix "app" and handler 5 on change, and
    the store while it loads *)
Definition q0 : store := Sto defaultHdl false [] [Some 1] [None; Some 2] [Some 3] None false false.
Definition qApp : store := Sto (withPrefix defaultHdl [pb "app"]) false [] [Some 5] [] [] (Some q0) false false.
Definition qLoad : store := set_loading q0 true.
Definition prog0 : list (store * scall) :=
  [(qLoad, SSet (pb "app.level") (GInt 1)); (q0, SGet (pb "app.level")); (qApp, SSet (pb "level") (GInt 2));
   (q0, SSet (pb "app.mode") (GInt 3)); (qApp, SHas (pb "mode")); (q0, SRemove (pb "app.mode")); (qApp, SHas (pb "mode"));
   (qApp, SMust (pb "level")); (q0, SRemove (pb "none"))].
Example C243_case : prog_plain dotD prog0 /\
  snd (m_run prog0 s_init) =
    [ASet GNil [ENew 2 (pb "app.level") (GInt 1) false]; AGet (GInt 1) true;
     ASet (GInt 1) [EChange 5 (pb "level") (GInt 2) (GInt 1) true; EChange 1 (pb "level") (GInt 2) (GInt 1) true];
     ASet GNil [ENew 2 (pb "app.mode") (GInt 3) true]; AHas true; ARem true [EDelete 3 (pb "app.mode") (GInt 3) true];
     AHas false; AMust (GInt 2); ARem false []] /\
  (exists t, st_run 1 prog0 newTrie = Ok (t, snd (m_run prog0 s_init))).
Proof.
  split.
  - repeat (apply Forall_cons; [split; [reflexivity|try exact I; intros d H; unfold dotD in H; subst d; vm_compute; reflexivity]|]).
    apply Forall_nil.
  - split; [run|]. eexists. run.
Qed.

(** ** C244: loading flags, handlers and parents change only handler calls and modified marks *)
Theorem C244_quiet D rf p q t : plain_reach D t -> prog_plain D p -> same_calls p q ->
  exists t1 t2 as1 as2, st_run (S rf) p t = Ok (t1, as1) /\ st_run (S rf) q t = Ok (t2, as2) /\
    map unheard as1 = map unheard as2 /\ forall k, option_map unmark (t_get t1 k) = option_map unmark (t_get t2 k).
Proof. exact (@quiet D rf p q t). Qed.
Print Assumptions C244_quiet.
(** the program above by stores without handlers, all loading: the answers are the same, the marks are not *)
Definition mute (s : store) : store := Sto (so_h s) true [] [] [] [] None false false.
Definition prog1 : list (store * scall) := map (fun sc => (mute (fst sc), snd sc)) prog0.
Definition mark_of (prog : list (store * scall)) (k : gostring) : option bool :=
  match st_run 1 prog newTrie with Ok (t, _) => option_map a_mod (t_get t (runes k)) | _ => None end.
Example C244_case : plain_reach dotD newTrie /\ prog_plain dotD prog0 /\ same_calls prog0 prog1 /\
  snd (m_run prog1 s_init) <> snd (m_run prog0 s_init) /\
  map unheard (snd (m_run prog1 s_init)) =
    [ASet GNil []; AGet (GInt 1) true; ASet (GInt 1) []; ASet GNil []; AHas true; ARem true []; AHas false; AMust (GInt 2); ARem false []] /\
  mark_of prog0 (pb "app.level") = Some true /\ mark_of prog1 (pb "app.level") = Some false.
Proof.
  split; [constructor|]. split; [exact (proj1 C243_case)|]. split; [repeat (constructor; [split; reflexivity|]); constructor|].
  split; [vm_compute; discriminate|]. split; [run|]. split; run.
Qed.
