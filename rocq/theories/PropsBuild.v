(** Making stores and finding codecs (C165 - C170): only statements.

    [says pick d os x]: the last of the options [os] that [pick] takes says [x], or there is none and [x] is [d].
    [left_at e before ops now]: what a map has under [e] after [ops], if it had [before]. *)
From Coq Require Import String.
From Coq Require Import List NArith ZArith Bool Arith Lia.
From Verif Require Import GoStr Utf8 Node NodeWf Trie Spec Refine ApiRefine Reach Derived Cvter Store StoreProofs Provider ProviderProofs Build BuildProofs.
Import ListNotations.
Open Scope nat_scope.
Open Scope list_scope.

Ltac run := vm_compute; reflexivity.
Definition b (s : string) : gostring := s2b s.

(** ** C165: what New makes of its options *)
Theorem C165_new env os : let '(_, s, t) := newStore env os in
  says delim_of 46%N os (hdelim (so_h s)) /\ says prefix_of_opt [] os (hprefix (so_h s)) /\ hmode (so_h s) = ModeNone /\
  says flat_of false os (so_flat s) /\ says watch_of false os (so_watch s) /\
  so_chg s = concat (map chg_of os) /\ so_new s = concat (map new_of os) /\ so_del s = concat (map del_of os) /\
  so_loading s = false /\ so_closers s = [] /\ so_parent s = None /\ (forall w, w <> [] -> t_get t w = None).
Proof.
  cbn [newStore]. destruct (new_made os) as (H1 & H2 & H3 & H4 & H5 & H6 & H7 & H8 & H9 & H10 & H11).
  repeat (split; [assumption|]). exact no_key.
Qed.
Print Assumptions C165_new.
(** [says] leaves no choice *)
Theorem C165_says A (pick : nopt -> option A) d os x y : says pick d os x -> says pick d os y -> x = y.
Proof. exact (says_one pick d os x y). Qed.
Print Assumptions C165_says.
(** options of different kinds may change places *)
Theorem C165_order env os os' : (forall n, of_kind n os = of_kind n os') -> newStore env os = newStore env os'.
Proof. intros K. unfold newStore. now rewrite (new_order os os' K). Qed.
Print Assumptions C165_order.
(** the first Set calls every handler for new keys, in the order given *)
Theorem C165_set rf env os k v : let '(_, s, t) := newStore env os in
  full (so_h s) k <> [] -> blank_free (full (so_h s) k) ->
  exists t' id, st_Set (S rf) s t k v =
    Ok (t', id, GNil, map (fun i => ENew i k v true) (concat (map (fun o => live (new_of o)) os))).
Proof. exact (@first_set rf env os k v). Qed.
Print Assumptions C165_set.
Definition os165 : list nopt :=
  [NOnNew [Some 1; None]; NPrefix (b "x"); NDelimiter 47%N; NOnDelete [Some 9]; NPrefix (b "app"); NOnNew [Some 2]; NFlatten true; NFlatten false; NWatch true].
Definition os165' : list nopt :=
  [NWatch true; NPrefix (b "x"); NPrefix (b "app"); NOnNew [Some 1; None]; NOnNew [Some 2]; NFlatten true; NOnDelete [Some 9]; NFlatten false; NDelimiter 47%N].
Example C165_ex : (let '(_, s, t) := newStore [] os165 in
   hdelim (so_h s) = 47%N /\ hprefix (so_h s) = b "app" /\ so_new s = [Some 1; None; Some 2] /\ so_flat s = false /\ so_watch s = true /\
   full (so_h s) (b "k") = b "app/k" /\
   match st_Set 1 s t (b "k") (GInt 3) with
   | Ok (t', _, old, es) => old = GNil /\ es = [ENew 1 (b "k") (GInt 3) true; ENew 2 (b "k") (GInt 3) true] /\
                            option_map a_data (t_get t' (runes (b "app/k"))) = Some (GInt 3)
   | _ => False
   end) /\ newStore [] os165 = newStore [] os165' /\ (forall n, of_kind n os165 = of_kind n os165').
Proof.
  split; [vm_compute; auto 12|]. split; [run|]. intros n. destruct n as [|[|[|[|[|[|[|n]]]]]]]; run.
Qed.

(** ** C166: Dup and Clone of a store *)
(** REFUTED: a copy tells no handler *)
Theorem C166_refuted : exists clone s t k v, so_new s <> [] /\ so_loading s = false /\
  let (s', t') := st_Dup clone s t in
  (exists t1 i1, st_Set 1 s t k v = Ok (t1, i1, GNil, [ENew 5 k v true])) /\
  (exists t2 i2, st_Set 1 s' t' k v = Ok (t2, i2, GNil, [])).
Proof.
  exists (fun v => v), (snd (fst (newStore [] [NOnNew [Some 5]]))), newTrie, (b "k"), (GInt 1).
  split; [discriminate|]. split; [reflexivity|]. cbn [st_Dup]. split; do 2 eexists; run.
Qed.
Print Assumptions C166_refuted.
(** prefix, delimiter, mode, flatten, watch and - also - loading are those of the original *)
Theorem C166_same clone s t : let (s', t') := st_Dup clone s t in
  so_h s' = so_h s /\ so_flat s' = so_flat s /\ so_watch s' = so_watch s /\ so_loading s' = so_loading s /\ t' = Dup clone t.
Proof. exact (@dup_same clone s t). Qed.
Print Assumptions C166_same.
(** whatever becomes of the tree [u] of the copy: no handler is called, no watcher closed *)
Theorem C166_silent rf clone s t u k v : let (s', _) := st_Dup clone s t in
  (forall t' id old es, st_Set rf s' u k v = Ok (t', id, old, es) -> es = []) /\
  (forall t' x es, st_Remove rf s' u k = Ok (t', x, es) -> es = []) /\ st_Close s' = [].
Proof.
  cbn [st_Dup]. split; [|split; [|reflexivity]].
  - intros t' id old es. exact (@dup_set_silent rf clone s t u k v t' id old es).
  - intros t' x es. exact (@dup_remove_silent rf clone s t u k t' x es).
Qed.
Print Assumptions C166_silent.
(** a copy made while the original was loading never loads anything, and reports no error *)
Theorem C166_stuck str json clone s t u os : so_loading s = true -> let (s', _) := st_Dup clone s t in
  Load str json s' u os = Ok (LRes s' u None [] None).
Proof. exact (@dup_loading str json clone s t u os). Qed.
Print Assumptions C166_stuck.
Example C166_ex : let s := snd (fst (newStore [] [NPrefix (b "app"); NFlatten true; NOnDelete [Some 7]])) in
  let (s', _) := st_Dup (fun v => v) s newTrie in hprefix (so_h s') = b "app" /\ so_flat s' = true /\ so_del s' = [] /\ so_del s = [Some 7].
Proof. run || (vm_compute; auto). Qed.

(** ** C167: the registry of codecs *)
(** after any calls of Register and Deregister (and writes to the map of ExtCodecMap) *)
Theorem C167_codec e ops : exists x, left_at e (reg_get suffixCodecMap e) ops x /\
  Codec (fold_left reg_op ops suffixCodecMap) e = match x with Some g => (g, true) | None => (None, false) end /\
  call (MustCodec (fold_left reg_op ops suffixCodecMap) e) = match x with Some (Some c) => Ok c | _ => Panic end.
Proof. exact (@codec_after e ops suffixCodecMap). Qed.
Print Assumptions C167_codec.
(** before any call: every listed extension has its codec, no other has one *)
Theorem C167_builtin e g : reg_get suffixCodecMap e = Some g <-> In (e, g) suffixCodecMap.
Proof.
  split; [|exact (reg_get_in suffixCodecMap e g suffixes_once)].
  generalize suffixCodecMap. intros m. induction m as [|[x y] m IH]; cbn [reg_get]; [discriminate|].
  destruct (str_eqb x e) eqn:X; [|right; auto]. intros H. injection H as <-. apply Utf8.str_eqb_eq in X. subst x. now left.
Qed.
Print Assumptions C167_builtin.
Definition ops167 : list rop := [Register (b "json") (Some (COwn 3)); Register (b "ini") None; Deregister (b "yml"); Register (b "json") (Some (COwn 4))].
Example C167_ex : let m := fold_left reg_op ops167 suffixCodecMap in
  Codec m (b "json") = (Some (COwn 4), true) /\ Codec m (b "ini") = (None, true) /\ Codec m (b "yml") = (None, false) /\
  Codec m (b "yaml") = (Some CYaml, true) /\ call (MustCodec m (b "ini")) = Panic /\ call (MustCodec m (b "nope")) = Panic.
Proof. vm_compute. auto 12. Qed.

(** ** C168: the codec of a file *)
(** REFUTED: the extension that filepath.Ext gives has its dot, no listed one has *)
Theorem C168_refuted : exists name e g, In (e, g) suffixCodecMap /\ e <> [] /\ name = b "app." ++ e /\
  Codec suffixCodecMap (Ext name) = (None, false) /\ call (MustCodec suffixCodecMap (Ext name)) = Panic.
Proof. exists (b "app.json"), (b "json"), (Some CJson). repeat split; try run; try discriminate. vm_compute. tauto. Qed.
Print Assumptions C168_refuted.
(** so it is for every file with an extension *)
Theorem C168_all name : Ext name <> [] -> Codec suffixCodecMap (Ext name) = (None, false).
Proof. exact (@ext_none name). Qed.
Print Assumptions C168_all.
(** without the dot every listed one is found *)
Theorem C168_found dir e g : In (e, g) suffixCodecMap -> Codec suffixCodecMap (skipn 1 (Ext (dir ++ 46%N :: e))) = (g, true).
Proof. exact (@ext_found dir e g). Qed.
Print Assumptions C168_found.
(** and a name without extension is taken for NestedText; the case of the letters matters *)
Example C168_ex : Ext (b "/etc/app.d/conf") = [] /\ Codec suffixCodecMap (Ext (b "/etc/app.d/conf")) = (Some CNestext, true) /\
  Ext (b "/etc/app.d/x.y.yml") = b ".yml" /\ Codec suffixCodecMap (b "yml") = (Some CYaml, true) /\ Codec suffixCodecMap (b "YML") = (None, false).
Proof. repeat split; run. Qed.

(** ** C169: New and the environment *)
(** REFUTED: New leaves the environment as it was; the environment provider offers one key more afterwards *)
Theorem C169_refuted : exists lower env os s s', env_prepare lower env_default env = Ok s /\
  env_prepare lower env_default (fst (fst (newStore env os))) = Ok s' /\
  env_Has s (b "STORE_VERSION") = false /\ env_Value s' (b "STORE_VERSION") = Some (GStr (b "v1.4.3")) /\ env_Count s' = S (env_Count s).
Proof.
  exists (fun k => k), [b "HOME=/root"], []. do 2 eexists. split; [run|]. split; [run|]. repeat split; run.
Qed.
Print Assumptions C169_refuted.
(** a provider with a prefix that STORE_VERSION does not begin with offers the same as before *)
Theorem C169_prefix lower o env os : e_prefix o <> [] -> has_prefix (e_prefix o) (b "STORE_VERSION") = false ->
  env_prepare lower o (fst (fst (newStore env os))) = env_prepare lower o env.
Proof. intros P H. apply new_env; [destruct (e_prefix o); [now elim P|reflexivity]|exact H]. Qed.
Print Assumptions C169_prefix.
Example C169_ex : let o := EnvO (b "APP_") [] [] None false true in has_prefix (e_prefix o) (b "STORE_VERSION") = false /\
  exists s, env_prepare (fun k => k) o (fst (fst (newStore [b "APP_X_Y=1"; b "STORE_VERSION=old"] []))) = Ok s /\ env_Value s (b "APP.X.Y") = Some (GStr (b "1")) /\ env_Count s = 1.
Proof. split; [run|]. eexists. split; [run|]. split; run. Qed.

(** ** C170: WithPretty of the json codec *)
(** REFUTED: the indented text is made and dropped *)
Theorem C170_refuted : exists indent compact m, indent m <> compact m /\ json_Marshal indent compact (json_New [true]) m = compact m.
Proof. exists (fun _ => inl (b "{ }")), (fun _ => inl (b "{}")), []. split; [discriminate|run]. Qed.
Print Assumptions C170_refuted.
(** any two codecs write the same text, whatever was asked of them *)
Theorem C170_same indent compact opts opts' m : json_Marshal indent compact (json_New opts) m = json_Marshal indent compact (json_New opts') m.
Proof. reflexivity. Qed.
Print Assumptions C170_same.
(** the last option decides, and without one the codec is made as WithPretty(true) *)
Theorem C170_option opts : json_New opts = last opts true.
Proof. induction opts as [|p opts IH] using rev_ind; [reflexivity|]. unfold json_New. now rewrite fold_left_app, last_last. Qed.
Print Assumptions C170_option.
Example C170_ex : json_New [] = true /\ json_New [true; false] = false.
Proof. split; reflexivity. Qed.
