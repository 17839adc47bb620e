(** The settings of the handles of a store (C239, C240): only statements.

    [hrun cs w]: the settings of all handles after the calls [cs], if they were [w] before; [drun cs w]: the same for a dummy
    store, [dprefix w j]: the prefix of its handle [j].  [sets j c]: the call [c] is SetPrefix or SetDelimiter through the
    handle [j]; [last_delim j cs d]: the delimiter set last through [j], else [d]; [last_prefix cs p]: the parts set last
    through any handle, with dots between them, else [p]. *)
From Coq Require Import String.
From Coq Require Import List NArith Bool Arith Lia.
From Verif Require Import GoStr Node Trie Dummy Handles HandlesProofs.
Import ListNotations.
Open Scope nat_scope.
Open Scope list_scope.

Ltac run := vm_compute; reflexivity.
Definition hb (x : string) : gostring := s2b x.

(** ** C239: the settings of a handle are its own *)
Theorem C239_own cs w w' j h : hrun cs w = Some w' -> nth_error w j = Some h -> existsb (sets j) cs = false ->
  nth_error w' j = Some h.
Proof. exact (@own_settings cs w w' j h). Qed.
Print Assumptions C239_own.
Theorem C239_delim cs w w' j h : hrun cs w = Some w' -> nth_error w j = Some h ->
  exists h', nth_error w' j = Some h' /\ hmode h' = hmode h /\ hdelim h' = last_delim j cs (hdelim h).
Proof. exact (@own_delim cs w w' j h). Qed.
Print Assumptions C239_delim.
Theorem C239_prefix cs i ps w w' h : hrun (CSetPrefix i ps :: cs) w = Some w' -> nth_error w i = Some h ->
  (forall qs, ~ In (CSetPrefix i qs) cs) -> exists h', nth_error w' i = Some h' /\ hprefix h' = Join (hdelim h) ps.
Proof. exact (@own_prefix cs i ps w w' h). Qed.
Print Assumptions C239_prefix.
Theorem C239_new c cs w w' h : hrun (c :: cs) w = Some w' -> nth_error w (through c) = Some h ->
  (forall j, sets j c = false) -> existsb (sets (length w)) cs = false ->
  exists n, nth_error w' (length w) = Some n /\ hdelim n = hdelim h /\
    hmode n = match c with CN _ => ModeNone | CR _ => ModeDown | CBR _ => ModeUp | _ => hmode h end /\
    match c with CN _ | CR _ | CBR _ | CDup _ => hprefix n = hprefix h | CWith _ ps => hprefix n = join1 (hdelim h) (hprefix h) ps
               | CRepl _ ps => hprefix n = Join (hdelim h) ps | _ => False end.
Proof. exact (@new_handle c cs w w' h). Qed.
Print Assumptions C239_new.
(** a view, a view of the view, and settings changed through all three *)
Definition h_calls : list hcall :=
  [CWith 0 [hb "app"]; CWith 1 [hb "db"]; CSetDelim 1 47%N; CSetPrefix 0 [hb "x"; hb "y"]; CBR 1; CSetPrefix 1 [hb "p"; hb "q"]].
Example C239_case : hrun h_calls [defaultHdl] =
  Some [Hdl (hb "x.y") 46%N (hmode defaultHdl); Hdl (hb "p/q") 47%N (hmode defaultHdl); Hdl (hb "app.db") 46%N (hmode defaultHdl);
        Hdl (hb "app") 47%N ModeUp].
Proof. run. Qed.
Example C239_case_own : existsb (sets 2) h_calls = false /\ existsb (sets 3) h_calls = false /\ last_delim 1 h_calls 46%N = 47%N /\
  (forall qs, ~ In (CSetPrefix 1 qs) (skipn 6 h_calls)).
Proof. split; [run|]. split; [run|]. split; [run|]. intros qs []. Qed.

(** ** C240: so are those of a dummy store *)
Theorem C240_refuted : exists cs w, drun cs dworld = Some w /\ length (snd w) = 2 /\ existsb (sets 0) cs = false /\
  dprefix dworld 0 = Some [] /\ dprefix w 0 = Some (hb "x").
Proof. exists [CWith 0 [hb "app"]; CSetPrefix 1 [hb "x"]]. eexists. split; [run|]. repeat split. Qed.
Print Assumptions C240_refuted.
(** all handles of a dummy store have one prefix: the one set last, through whichever *)
Theorem C240_one cs w j : drun cs dworld = Some w -> j < length (snd w) -> dprefix w j = Some (last_prefix cs []).
Proof. exact (@dummy_one_prefix cs w j). Qed.
Print Assumptions C240_one.
Example C240_case : exists w, drun [CWith 0 [hb "app"]; CSetPrefix 1 [hb "x"; hb "y"]; CBR 1; CRepl 2 []] dworld = Some w /\
  3 < length (snd w) /\ dprefix w 3 = Some (hb "x.y").
Proof. eexists. split; [run|]. split; [cbn; lia|run]. Qed.
