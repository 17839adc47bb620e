(** The properties of StartsWith and EndsWith (C220, C221): only statements. *)
From Coq Require Import String.
From Coq Require Import List NArith ZArith Bool Arith Lia.
From Verif Require Import GoStr Utf8 Node NodeWf MatchProofs Trie Spec Refine ApiRefine Reach Derived Derived2 Derived3 Cvter CvterProofs Samples Fragment.
Import ListNotations.
Open Scope nat_scope.
Open Scope list_scope.

Definition frag_run (ps : list gostring) : tr :=
  match t_run 1 (map (fun p => (hd0, OSet p (GInt 1))) ps) newTrie with Ok (t, _) => t | _ => newTrie end.
(** one key; two keys that part behind "app.d" *)
Definition frag_1 : tr := Eval vm_compute in frag_run [s2b "app.debug"].
Definition frag_2 : tr := Eval vm_compute in frag_run [s2b "app.debug"; s2b "app.dump"].
Lemma frag_2_plain : plain_reach dotD frag_2.
Proof.
  apply (plain_reach_hist dotD 0 (map (fun p => (hd0, OSet p (GInt 1))) [s2b "app.debug"; s2b "app.dump"]) frag_2
    (match t_run 1 (map (fun p => (hd0, OSet p (GInt 1))) [s2b "app.debug"; s2b "app.dump"]) newTrie with Ok (_, o) => o | _ => [] end));
    [cbn [map]; plains|vm_compute; reflexivity].
Qed.

(** ** C220: StartsWith tests the last path fragment by delimiter (the comment in the interface) *)
Theorem C220_refuted : exists p last r,
  p = s2b "app." ++ r :: last /\ StartsWith 1 hd0 frag_1 p r = Ok false /\ StartsWith 1 hd0 frag_2 p r = Ok false /\
  (* and the answer for a key that is there changes by writing another key *)
  exists c, c <> r /\ StartsWith 1 hd0 frag_1 p c = Ok true /\ StartsWith 1 hd0 frag_2 p c = Ok false.
Proof.
  exists (s2b "app.debug"), (s2b "ebug"), 100%N. split; [reflexivity|]. split; [vm_compute; reflexivity|]. split; [vm_compute; reflexivity|].
  exists 97%N. split; [discriminate|]. split; vm_compute; reflexivity.
Qed.
Print Assumptions C220_refuted.

(** ** C221: what StartsWith and EndsWith test *)
Theorem C221_key (D : rune -> Prop) rf h t path : plain_reach D t -> D (hdelim h) -> full h path <> [] ->
  t_get t (runes (full h path)) <> None ->
  exists q y0 y, runes (full h path) = q ++ y0 :: y /\ t_get t q <> None /\
    (forall k, t_get t k <> None -> prefix k (runes (full h path)) -> prefix k q \/ k = runes (full h path)) /\
    forall c, StartsWith (S rf) h t path c = Ok (y0 =? c)%N /\ EndsWith (S rf) h t path c = Ok (ends_with c (runes (full h path))).
Proof. exact (fragment_key D rf h t path). Qed.
Print Assumptions C221_key.
Theorem C221_section (D : rune -> Prop) rf h t path c : plain_reach D t -> D (hdelim h) -> full h path <> [] ->
  t_get t (runes (full h path)) = None -> t_get t (runes (full h path) ++ [hdelim h]) <> None ->
  EndsWith (S rf) h t path c = Ok (hdelim h =? c)%N.
Proof. exact (fragment_section D rf h t path c). Qed.
Print Assumptions C221_section.
Theorem C221_absent (D : rune -> Prop) rf h t path c : plain_reach D t -> D (hdelim h) -> hmode h <> ModeUp -> full h path <> [] ->
  t_get t (runes (full h path)) = None -> t_get t (runes (full h path) ++ [hdelim h]) = None ->
  StartsWith (S rf) h t path c = Ok false /\ EndsWith (S rf) h t path c = Ok false.
Proof. exact (fragment_absent D rf h t path c). Qed.
Print Assumptions C221_absent.
Example C221_case : plain_reach dotD frag_2 /\ t_get frag_2 (runes (full hd0 (s2b "app.debug"))) <> None /\
  t_get frag_2 (s2b "app.d") <> None /\
  StartsWith 1 hd0 frag_2 (s2b "app.debug") 101%N = Ok true /\ EndsWith 1 hd0 frag_2 (s2b "app.debug") 103%N = Ok true /\
  t_get frag_2 (runes (full hd0 (s2b "app.dx"))) = None /\ EndsWith 1 hd0 frag_2 (s2b "app.dx") 120%N = Ok false.
Proof. split; [exact frag_2_plain|]. repeat split; try discriminate; vm_compute; reflexivity. Qed.
(** a section *)
Definition frag_3 : tr := Eval vm_compute in frag_run [s2b "app.debug"; s2b "app.tags"].
Example C221_case_section : t_get frag_3 (runes (full hd0 (s2b "app"))) = None /\
  t_get frag_3 (runes (full hd0 (s2b "app")) ++ [hdelim hd0]) <> None /\
  EndsWith 1 hd0 frag_3 (s2b "app") 46%N = Ok true /\ EndsWith 1 hd0 frag_3 (s2b "app") 112%N = Ok false.
Proof. repeat split; try discriminate; vm_compute; reflexivity. Qed.
