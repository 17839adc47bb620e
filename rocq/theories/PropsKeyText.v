(** The properties of keys as byte strings (C211): only statements. *)
From Coq Require Import String.
From Coq Require Import List NArith ZArith Bool Arith Lia.
From Verif Require Import GoStr Utf8 Node NodeWf MatchProofs Trie Spec TreeOps Refine ApiRefine Reach Derived KeyText.
From Verif Require Import Samples.
Import ListNotations.
Open Scope list_scope.

(** ** C211: which byte strings are the same key *)
(** [encodes r l]: [l] is the UTF-8 encoding of the scalar value [r]; [reads s rs]: [rs] is what a reader finds in [s] that takes a
    byte at which no encoding starts for U+FFFD; [well s]: [s] consists of encodings; [same_key p q]: [p] and [q] read the same *)
Theorem C211_reads s rs : runes s = rs <-> reads s rs.
Proof. exact (@runes_reads s rs). Qed.
Print Assumptions C211_reads.
Theorem C211_well s : valid_utf8 s = true <-> well s.
Proof. exact (@valid_well s). Qed.
Print Assumptions C211_well.
Theorem C211_text rs ls : Forall2 encodes rs ls -> of_runes rs = concat ls.
Proof. exact (@text_encodes rs ls). Qed.
Print Assumptions C211_text.
(** keys that read the same are one key for lookups *)
Theorem C211_lookup rf h t p q : hmode h <> ModeUp -> same_key (full h p) (full h q) ->
  Query rf h t p = Query rf h t q /\ Has rf h t p = Has rf h t q /\ Locate rf h t p = Locate rf h t q /\
  RemoveEx rf h t p = RemoveEx rf h t q.
Proof. exact (@same_lookup rf h t p q). Qed.
Print Assumptions C211_lookup.
(** a value set under one is found under the other *)
Theorem C211_set D rf h t p q v t' old calls :
  plain_reach D t -> D (hdelim h) -> op_plain D (full h) (OSetEx p v) -> hmode h <> ModeUp ->
  SetEx h t p v = Ok (t', old, calls) -> same_key (full h p) (full h q) ->
  exists r, Query (S rf) h t' q = Ok r /\ q_data r = v.
Proof. exact (@same_set D rf h t p q v t' old calls). Qed.
Print Assumptions C211_set.
(** keys that read differently are different entries; two well-formed keys read the same only if they are equal *)
Theorem C211_apart h t p q v t' old calls rs a :
  reached t -> SetEx h t p v = Ok (t', old, calls) -> ~ same_key (full h p) (full h q) -> reads (full h q) rs ->
  t_get t rs = Some a -> t_get t' rs = Some a.
Proof. exact (@same_apart h t p q v t' old calls rs a). Qed.
Print Assumptions C211_apart.
Theorem C211_wellformed p q : well p -> well q -> same_key p q -> p = q.
Proof. exact (@same_well p q). Qed.
Print Assumptions C211_wellformed.
Definition euro : gostring := [0xE2; 0x82; 0xAC]%N.
Example C211_ex :
  encodes 0x20AC euro /\ well (euro ++ s2b ".x"%string) /\ runes (euro ++ s2b ".x"%string) = [0x20AC; 46; 120]%N /\
  (* an overlong form of '/', a surrogate, a truncated sequence and U+FFFD itself *)
  same_key [0xC0; 0xAF]%N [0xFF; 0xE2]%N /\ same_key [0xED; 0xA0; 0x80]%N (of_runes [0xFFFD; 0xFFFD; 0xFFFD]%N) /\
  ~ same_key euro [0xE2; 0x82]%N /\
  plain_reach dotD t1 /\ op_plain dotD (full hd0) (OSetEx [0xC0]%N (GInt 1)) /\ hmode hd0 <> ModeUp /\
  (exists t' old calls, SetEx hd0 t1 [0xC0]%N (GInt 1) = Ok (t', old, calls) /\ Get 1 hd0 t' [0xFE]%N = Ok (GInt 1, true)) /\
  (exists rs a, reads (full hd0 "app.name"%string) rs /\ t_get t1 rs = Some a) /\
  ~ same_key (full hd0 [0xC0]%N) (full hd0 "app.name"%string).
Proof.
  split; [change 0x20AC%N with (2 * 4096 + 2 * 64 + 44)%N; unfold euro; change [226; 130; 172]%N with [0xE0 + 2; 0x80 + 2; 0x80 + 44]%N; apply en_3; lia|].
  split; [apply valid_well; vm_compute; reflexivity|]. split; [vm_compute; reflexivity|].
  split; [apply same_runes; vm_compute; reflexivity|]. split; [apply same_runes; vm_compute; reflexivity|].
  split; [rewrite same_runes; vm_compute; discriminate|].
  split; [apply t1_plain|]. split; [dots|]. split; [discriminate|].
  split; [do 3 eexists; split; [vm_compute; reflexivity|vm_compute; reflexivity]|].
  split; [do 2 eexists; split; [apply runes_reads; reflexivity|vm_compute; reflexivity]|].
  rewrite same_runes; vm_compute; discriminate.
Qed.
