(** The property of sizes with unusual units (C210): only statements. *)
From Coq Require Import String.
From Coq Require Import List NArith Bool Arith Lia.
From Verif Require Import GoStr Utf8 Node Trie Dur Cvter SizeProofs SizeLit SizeUnits.
Import ListNotations.
Open Scope N_scope.
Open Scope list_scope.
Ltac run := vm_compute; reflexivity.

(** ** C210: texts with other units are no sizes *)
(** "3ZiB" is three bytes, and of several units only the last one counts *)
Theorem C210_refuted PF :
  FromKibiBytes PF (s2b "3ZiB"%string) = Ok 3 /\ FromKiloBytes PF (s2b "2 YB"%string) = Ok 2 /\
  FromKibiBytes PF (s2b "1Gk"%string) = Ok 1024 /\ FromKiloBytes PF (s2b "7Mz"%string) = Ok 7.
Proof. repeat split; run. Qed.
Print Assumptions C210_refuted.
(** what is answered instead, for a literal with any run of unit letters: [letter c] for the letters of kmgtpezy in either case, and
    [taken_for c] is 1 for k, 2 for m, ... 6 for e, and 0 for z and y *)
Theorem C210_kibi PF lead s b t mid u x y trail : literal s b t -> u <> [] -> Forall (fun c => letter c = true) u ->
  (mid <> [] \/ mem (last t 0) (s2b "eE"%string) = false) ->
  Forall (fun c => blank c = true) (lead ++ mid ++ trail) ->
  Forall (fun b => mem b (s2b "ib"%string) = true) x -> Forall (fun b => mem b (s2b "iB"%string) = true) y ->
  FromKibiBytes PF (lead ++ (s ++ mid ++ u ++ x ++ y) ++ trail) = Ok (outcome_of (reading b t) (1024 ^ taken_for (last u 0))).
Proof. exact (@kibi_run PF lead s b t mid u x y trail). Qed.
Print Assumptions C210_kibi.
Theorem C210_kilo PF lead s b t mid u x y trail : literal s b t -> u <> [] -> Forall (fun c => letter c = true) u ->
  (mid <> [] \/ mem (last t 0) (s2b "eE"%string) = false) ->
  Forall (fun c => blank c = true) (lead ++ mid ++ trail) ->
  Forall (fun b => mem b (s2b "b"%string) = true) x -> Forall (fun b => mem b (s2b "B"%string) = true) y ->
  FromKiloBytes PF (lead ++ (s ++ mid ++ u ++ x ++ y) ++ trail) = Ok (outcome_of (reading b t) (1000 ^ taken_for (last u 0))).
Proof. exact (@kilo_run PF lead s b t mid u x y trail). Qed.
Print Assumptions C210_kilo.
Example C210_case PF :
  literal (s2b "12"%string) 10 (s2b "12"%string) /\ Forall (fun c => letter c = true) (s2b "kmgtpezyKMGTPEZY"%string) /\
  map taken_for (s2b "kmgtpezyKMGTPEZY"%string) = [1; 2; 3; 4; 5; 6; 0; 0; 1; 2; 3; 4; 5; 6; 0; 0] /\
  FromKibiBytes PF (s2b " 12 yZmB "%string) = Ok (12 * 1024 ^ 2) /\ FromKiloBytes PF (s2b "12KMGTPEZY"%string) = Ok 12.
Proof.
  split; [apply l_dec; [repeat constructor|discriminate]|]. split; [repeat constructor|]. repeat split; run.
Qed.
