(** The properties of the texts of a store, Dump and MarshalJSON (C113 - C116): only statements.

    [Dump dim lightgreen green sprint q t]: the text of the tree [t]; [dim], [lightgreen], [green] colour a text, [sprint] is
    fmt.Sprint, [q] the verb %q.  [dump_line .. d n]: the line of the node [n] at depth [d].  [wrong_mark q n]: the end of
    that line, which tells of a path that does not fit.  [chain s l n]: [l] are the nodes from [s] down to [n].
    [within x s]: the text [x] is part of [s].
    [store_MarshalJSON isPrintU h], [trie_MarshalJSON isPrintU h]: the JSON text of a handle; [isPrintU]: unicode.IsPrint
    outside ASCII.  [json_text s]: the value the JSON text [s] stands for, None if it is no JSON.  [json_rune isPrintU c]: the rune is
    printable, one of \b \t \n \f \r, or between 0x80 and 0xFFFF.  [plainc c]: neither quote nor backslash nor control character. *)
From Coq Require Import String.
From Coq Require Import List NArith ZArith Bool Arith Lia.
From Verif Require Import GoStr Utf8 Node NodeWf Trie TreeOps Spec Refine ApiRefine Reach Derived3 Derived4 CvterProofs Misc Text
  TextProofs JsonProofs.
Import ListNotations.
Open Scope nat_scope.
Open Scope list_scope.

Ltac run := vm_compute; reflexivity.
Definition b (s : string) : gostring := s2b s.
Definition h0 := defaultHdl.

(** ** C113: Dump shows every key that has data and reports no wrong path *)
Theorem C113_refuted : forall dim lightgreen green sprint q, exists hist t outs a,
  t_run 1 hist newTrie = Ok (t, outs) /\ valid_hist hist /\ t_get t [] = Some a /\ a_has a = true /\ a_data a = GInt 3 /\
  Dump dim lightgreen green sprint q t = [].
Proof.
  intros. exists [(h0, OSet [] (GInt 3))]. do 3 eexists. split; [run|]. split; [repeat constructor|].
  split; [run|]. split; [run|]. split; run.
Qed.
Print Assumptions C113_refuted.
(** 日本, 日月 and 日 *)
Definition nichi : list (hdl * op) :=
  [(h0, OSet [0xE6; 0x97; 0xA5; 0xE6; 0x9C; 0xAC]%N (GInt 1)); (h0, OSet [0xE6; 0x97; 0xA5; 0xE6; 0x9C; 0x88]%N (GInt 2));
   (h0, OSet [0xE6; 0x97; 0xA5]%N (GInt 3))].
Theorem C113_refuted_wrong : exists t outs l n,
  t_run 1 nichi newTrie = Ok (t, outs) /\ valid_hist nichi /\ chain (root t) l n /\ hasData n = true /\
  pieces l = [0xE6; 0x97; 0xA5]%N /\ key n <> pieces l /\ (forall q, wrong_mark q n <> []).
Proof.
  do 2 eexists. eexists. eexists. split; [run|]. split; [repeat constructor|]. split.
  - eapply chain_kid; [left; reflexivity|apply chain_here].
  - split; [run|]. split; [run|]. split; [vm_compute; discriminate|]. intros q. vm_compute. discriminate.
Qed.
Print Assumptions C113_refuted_wrong.

(** ** C114: what Dump shows *)
Theorem C114_lines dim lightgreen green sprint q  t : reached t -> exists es,
  Dump dim lightgreen green sprint q t = flat_map (fun e => concat (repeat (s2b "  ") (fst e)) ++ dump_line dim lightgreen green sprint q false (fst e) (snd e)) es /\
  root t :: map snd es = walk (root t) /\
  (forall d n, In (d, n) es <-> exists l, chain (root t) l n /\ length l = S d /\ 0 < d).
Proof. exact (@dump_lines_spec dim lightgreen green sprint q t). Qed.
Print Assumptions C114_lines.
(** a line begins with the fragment of the node; its mark is in column 32, or one blank behind a longer fragment; a line ends with a newline *)
Theorem C114_column dim lightgreen green sprint q d n : exists rest,
  dump_line dim lightgreen green sprint q false d n =
    of_runes (npath n) ++ repeat 32%N (Nat.max 1 (32 - (2 * d + length (npath n)))) ++ dim (s2b (if isBranch n then "<B>" else "<L>")) ++ rest ++ [10%N].
Proof. exact (@dump_column dim lightgreen green sprint q d n). Qed.
Print Assumptions C114_column.
Theorem C114_ascii dim lightgreen green sprint q  rf hist t outs k a :
  t_run rf hist newTrie = Ok (t, outs) -> ascii_hist hist -> t_get t k = Some a -> a_has a = true -> k <> [] ->
  within (dim (s2b (if a_leaf a then "<L>" else "<B>")) ++ s2b " " ++ k ++ s2b " => " ++ dim (sprint (a_data a))) (Dump dim lightgreen green sprint q t).
Proof. exact (@dump_ascii dim lightgreen green sprint q rf hist t outs k a). Qed.
Print Assumptions C114_ascii.
Theorem C114_leaf dim lightgreen green sprint q  t s a :
  vreach t -> valid_utf8 s = true -> t_get t (runes s) = Some a -> a_leaf a = true -> a_has a = true -> s <> [] ->
  within (dim (s2b "<L>") ++ s2b " " ++ s ++ s2b " => " ++ dim (sprint (a_data a))) (Dump dim lightgreen green sprint q t).
Proof. exact (@dump_leaf dim lightgreen green sprint q t s a). Qed.
Print Assumptions C114_leaf.
Theorem C114_right q  t l n : chain (root t) l n ->
  (exists rf hist outs, t_run rf hist newTrie = Ok (t, outs) /\ (ascii_hist hist \/ valid_hist hist /\ isLeaf n = true)) ->
  wrong_mark q n = [].
Proof. exact (@dump_right q t l n). Qed.
Print Assumptions C114_right.
Definition hist0 : list (hdl * op) :=
  [(h0, OSet (b "app.debug") (GBool true)); (h0, OSet (b "app.name") (GStr (b "x"))); (h0, OSet (b "app.") (GInt 3))].
Definition sp (v : gval) : gostring := match v with GInt _ => b "int" | GBool _ => b "bool" | _ => b "other" end.
Example C114_case : exists t outs l n,
  t_run 1 hist0 newTrie = Ok (t, outs) /\ ascii_hist hist0 /\ chain (root t) l n /\ length l = 3 /\
  t_get t (b "app.debug") = Some (Attr (GBool true) [] [] GNil true true false) /\
  Dump (fun s => s) (fun s => s) (fun s => s) sp (fun s => s) t =
    b "  app.                          <B> app. => int" ++ [10%N] ++
    b "    debug                       <L> app.debug => bool" ++ [10%N] ++
    b "    name                        <L> app.name => other" ++ [10%N].
Proof.
  do 2 eexists. eexists. eexists. split; [run|]. split; [repeat constructor|]. split.
  - eapply chain_kid; [left; reflexivity|]. eapply chain_kid; [left; reflexivity|]. apply chain_here.
  - split; [run|]. split; run.
Qed.

(** ** C115: MarshalJSON writes JSON *)
Theorem C115_refuted : forall isPrintU, exists h, json_text (store_MarshalJSON isPrintU h) = None /\ hprefix h = [].
Proof. intros. exists (Hdl [] 92%N ModeNone). split; run. Qed.
Print Assumptions C115_refuted.
Theorem C115_refuted_prefix : forall isPrintU, exists h, json_text (store_MarshalJSON isPrintU h) = None /\ hdelim h = dotChar /\
  ascii (hprefix h) = true.
Proof. intros. exists (Hdl [97; 7]%N dotChar ModeNone). split; [run|]. split; run. Qed.
Print Assumptions C115_refuted_prefix.
Theorem C115_refuted_trie isPrintU  h : json_text (trie_MarshalJSON isPrintU h) = None.
Proof. exact (@trie_never_json isPrintU h). Qed.
Print Assumptions C115_refuted_trie.

(** ** C116: when MarshalJSON writes JSON, and which *)
Open Scope N_scope.
(** the constants RecusiveModeNone, RecusiveModeUp and RecusiveModeDown without what they have in common *)
Definition mode_word (m : rmode) : gostring := match m with ModeNone => b "None" | ModeUp => b "Up" | ModeDown => b "Down" end.
Theorem C116_json isPrintU  h :
  json_text (store_MarshalJSON isPrintU h) =
  if valid_utf8 (hprefix h) && forallb (json_rune isPrintU) (runes (hprefix h)) && plainc (hdelim h)
  then Some (JObj [(s2b "trie", JObj [(s2b "prefix", JStr (hprefix h)); (s2b "delimiter", JStr (enc1 (hdelim h)));
                                      (s2b "recursive-mode", JStr (mode_word (hmode h)))])])
  else None.
Proof. rewrite marshal_json. destruct h as [? ? []]; reflexivity. Qed.
Print Assumptions C116_json.
Theorem C116_ascii isPrintU  h : Forall (fun c => 32 <= c < 127) (hprefix h) -> plainc (hdelim h) = true ->
  json_text (store_MarshalJSON isPrintU h) <> None.
Proof. exact (@ascii_json isPrintU h). Qed.
Print Assumptions C116_ascii.
(** for an ASCII prefix: exactly if it has no other control characters than \b, \t, \n, \f and \r, and no DEL *)
Theorem C116_ascii_iff isPrintU h : Forall (fun c => c < 128) (hprefix h) -> plainc (hdelim h) = true ->
  (json_text (store_MarshalJSON isPrintU h) <> None <->
   Forall (fun c => 32 <= c < 127 \/ In c [8; 9; 10; 12; 13]) (hprefix h)).
Proof. exact (@ascii_json_iff isPrintU h). Qed.
Print Assumptions C116_ascii_iff.
Example C116_ascii_iff_ex : Forall (fun c => c < 128) (hprefix (Hdl [97; 127] 47 ModeUp)) /\ plainc 47 = true /\
  store_MarshalJSON (fun _ => true) (Hdl [97; 127] 47 ModeUp) =
    b "{""trie"":{""prefix"":""a\x7f"",""delimiter"":""/"", ""recursive-mode"":""Up""}}".
Proof. split; [repeat constructor|]. split; run. Qed.
Example C116_case : exists h, json_text (store_MarshalJSON (fun _ => false) h) =
    Some (JObj [(b "trie", JObj [(b "prefix", JStr (hprefix h)); (b "delimiter", JStr (b "/")); (b "recursive-mode", JStr (b "Up"))])]) /\
  store_MarshalJSON (fun _ => false) h =
    b "{""trie"":{""prefix"":""a\""\n\u00e9"",""delimiter"":""/"", ""recursive-mode"":""Up""}}".
Proof. exists (Hdl [97; 34; 10; 0xC3; 0xA9]%N 47%N ModeUp). split; run. Qed.
