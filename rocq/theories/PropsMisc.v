(** The properties of the small packages (C48, C49, C51, C52, C61-C63): only statements.

    [str_lt] is the byte-wise order of Go strings; [crun c ops] the answers of a sequence of calls on a
    context, Next's only; [paths d m] the keys of a map split at the delimiter; [nget v ks] the value at
    a path inside nested maps; [below p q]: [q] is a longer path that begins with [p]. *)
From Coq Require Import String.
From Coq Require Import List NArith ZArith Bool Arith Lia Permutation Sorted.
From Verif Require Import GoStr Utf8 Trie Climb Cvter Nested Export MergeProofs Misc MiscProofs CvtProofs.
Import ListNotations.
Open Scope nat_scope.
Open Scope list_scope.

Ltac run := vm_compute; reflexivity.
Definition b (s : string) : gostring := s2b s.

(** ** C48: names of operations *)
Theorem C48_refuted addr o old : UnmarshalText old (MarshalText addr o) = (old, false).
Proof. exact (@op_text_refuted addr o old). Qed.
Print Assumptions C48_refuted.
Theorem C48_lower addr o old : named o -> UnmarshalText old (lowerA (MarshalText addr o)) = (o, true).
Proof. exact (@op_text_lower addr o old). Qed.
Print Assumptions C48_lower.
Theorem C48_parse old text o : UnmarshalText old text = (o, true) <->
  exists s, text = s2b s /\
    In (s, o) [("create"%string, OpCreate); ("new"%string, OpCreate); ("modify"%string, OpWrite);
               ("write"%string, OpWrite); ("rename"%string, OpRename); ("remove"%string, OpRemove);
               ("delete"%string, OpRemove); ("rm"%string, OpRemove); ("chmod"%string, OpChmod);
               ("none"%string, OpNone)].
Proof. exact (@op_parse old text o). Qed.
Print Assumptions C48_parse.
Theorem C48_bad old text o : UnmarshalText old text = (o, false) -> o = old.
Proof. exact (@op_bad old text o). Qed.
Print Assumptions C48_bad.
Example C48_case : UnmarshalText OpChmod (b "rm") = (OpRemove, true) /\ MarshalText [] OpRemove = b "REMOVE" /\
  UnmarshalText OpChmod (b "REMOVE") = (OpChmod, false) /\ named OpWrite.
Proof. split; [run|]. split; [run|]. split; [run|]. exists (b "modify"). run. Qed.

(** ** C49: Deflate and Normalize *)
(** each value is found at its path, what leads to it are maps, nothing else is there *)
Theorem C49_deflate m d : d <> [] -> NoDup (map fst m) -> prefix_free (map (fun k => split_str k d) (map fst m)) ->
  deflated (paths d m) (Deflate m d).
Proof. exact (@deflate_spec m d). Qed.
Print Assumptions C49_deflate.
(** whatever the iteration order *)
Theorem C49_deflate_order m m' d : d <> [] -> NoDup (map fst m) -> prefix_free (map (fun k => split_str k d) (map fst m)) ->
  Permutation m m' -> forall q, same_place (nget (GMap (Deflate m d)) q) (nget (GMap (Deflate m' d)) q).
Proof. exact (@deflate_order m m' d). Qed.
Print Assumptions C49_deflate_order.
Theorem C49_deflate_refuted a b v w : is_map v = false -> a <> b -> contains (s2b "."%string) a = false -> contains (s2b "."%string) b = false ->
  let k := a ++ s2b "."%string ++ b in
  Deflate [(a, v); (k, w)] (s2b "."%string) = [(a, v); (b, w)] /\
  Deflate [(k, w); (a, v)] (s2b "."%string) = [(a, v)].
Proof. exact (@deflate_refuted a b v w). Qed.
Print Assumptions C49_deflate_refuted.
Theorem C49_deflate_map_refuted a b mm w : a <> b -> contains (s2b "."%string) a = false -> contains (s2b "."%string) b = false ->
  let k := a ++ s2b "."%string ++ b in
  Deflate [(a, GMap mm); (k, w)] (s2b "."%string) = [(a, GMap (mset mm b w))] /\
  Deflate [(k, w); (a, GMap mm)] (s2b "."%string) = [(a, GMap mm)].
Proof. exact (@deflate_map_refuted a b mm w). Qed.
Print Assumptions C49_deflate_map_refuted.
Example C49_case :
  let m := [(b "a.x", GInt 1); (b "b", GInt 2); (b "a.y", GInt 3)] in
  let d := b "." in
  Deflate m d = [(b "a", GMap [(b "x", GInt 1); (b "y", GInt 3)]); (b "b", GInt 2)] /\
  NoDup (map fst m) /\ prefix_free (map (fun k => split_str k d) (map fst m)).
Proof.
  split; [run|]. split.
  - repeat constructor; cbn; intros H; repeat destruct H as [H|H]; try discriminate; tauto.
  - intros p q Hp Hq (z & r & E). vm_compute in Hp, Hq. repeat destruct Hp as [<-|Hp]; repeat destruct Hq as [<-|Hq]; try tauto; discriminate.
Qed.
(** Normalize: no map with other keys than strings is left in what it handles; nothing is lost *)
Theorem C49_normalize sprint  v : tame v = true -> anyfree (normalize sprint v) = true.
Proof. exact (@normalize_anyfree sprint v). Qed.
Print Assumptions C49_normalize.
Theorem C49_normalize_get sprint ks v :
  nget (normalize sprint v) ks = option_map (normalize sprint) (aget sprint v ks).
Proof. exact (@normalize_get sprint ks v). Qed.
Print Assumptions C49_normalize_get.
Theorem C49_normalize_idem sprint  v : normalize sprint (normalize sprint v) = normalize sprint v.
Proof. exact (@normalize_idem sprint v). Qed.
Print Assumptions C49_normalize_idem.
Theorem C49_normalize_order sprint  m m' k : NoDup (map (fun e => sprint (fst e)) m) -> Permutation m m' -> alast sprint m k = alast sprint m' k.
Proof. exact (@alast_order sprint m m' k). Qed.
Print Assumptions C49_normalize_order.
Theorem C49_normalize_slice_refuted sprint  l l' l2 : In (GList l') l -> normalize sprint (GList l) = GList l2 -> In (GList l') l2.
Proof. exact (@normalize_slice_refuted sprint l l' l2). Qed.
Print Assumptions C49_normalize_slice_refuted.
Theorem C49_normalize_maps_refuted sprint  l : normalize sprint (GAMaps l) = GAMaps l.
Proof. exact (@normalize_maps_refuted sprint l). Qed.
Print Assumptions C49_normalize_maps_refuted.
Theorem C49_normalize_collision_refuted :
  normalize sprint1 (GAMap [(GInt 1, GStr (s2b "x"%string)); (GStr (s2b "1"%string), GStr (s2b "y"%string))]) =
    GMap [(s2b "1"%string, GStr (s2b "y"%string))] /\
  normalize sprint1 (GAMap [(GStr (s2b "1"%string), GStr (s2b "y"%string)); (GInt 1, GStr (s2b "x"%string))]) =
    GMap [(s2b "1"%string, GStr (s2b "x"%string))].
Proof. exact (@normalize_collision_refuted ). Qed.
Print Assumptions C49_normalize_collision_refuted.
Example C49_normalize_case :
  let v := GMap [(b "l", GList [GAMap [(GInt 1, GAMap [(GStr (b "k"), GInt 7)])]]); (b "m", GAMap [(GStr (b "k"), GInt 7)])] in
  tame v = true /\ anyfree v = false /\ nget (normalize sprint1 v) [b "m"; b "k"] = Some (GInt 7) /\
  normalize sprint1 v = GMap [(b "l", GList [GMap [(b "1", GMap [(b "k", GInt 7)])]]); (b "m", GMap [(b "k", GInt 7)])].
Proof. split; [run|]. split; [run|]. split; run. Qed.
Example C49_slice_case : let v := GList [GList [GAMap [(GInt 1, GNil)]]] in
  normalize sprint1 v = v /\ anyfree (normalize sprint1 v) = false.
Proof. split; run. Qed.

(** ** C51: the values of a context *)
Theorem C51_next c ops : ctx_ok c -> plainops ops -> forall before,
  let c0 := fst (crun c before) in
  exists l, StronglySorted str_lt l /\ Permutation l (map fst (c_vals c0)) /\ length l = ctx_NamesCount c0 /\
    snd (crun (ctx_Reset c0) (CNext :: ops)) =
      firstn (S (nexts ops)) (map Some l) ++ repeat None (S (nexts ops) - length l).
Proof. exact (@ctx_next_spec c ops). Qed.
Print Assumptions C51_next.
Theorem C51_entry c c' : ctx_Next (ctx_Reset c) = (c', true) ->
  mget (c_vals c) (c_picked c') = Some (snd (ctx_Entry c')) /\ fst (ctx_Entry c') = c_picked c' /\
  c_vals c' = c_vals c.
Proof. exact (@ctx_entry c c'). Qed.
Print Assumptions C51_entry.
Theorem C51_kept c ops k : ctx_ok c -> In k (map fst (c_vals c)) ->
  In k (map fst (c_vals (fst (crun c ops)))).
Proof. exact (@ctx_entry_run c ops k). Qed.
Print Assumptions C51_kept.
Theorem C51_order a b : Permutation a b -> sort_strings a = sort_strings b.
Proof. exact (@sort_order_irrelevant a b). Qed.
Print Assumptions C51_order.
Theorem C51_values str (ps : list (gostring * gval)) c :
  Forall (fun p => fst p <> []) ps -> forall k,
  ctx_ValueBy (ctx_WithValues str (flat_map (fun p => [GStr (fst p); snd p]) ps) c) k =
  match find (fun p => str_eqb (fst p) k) (rev ps) with Some p => snd p | None => ctx_ValueBy c k end.
Proof. exact (@ctx_with_values str ps c). Qed.
Print Assumptions C51_values.
Theorem C51_fresh str (ps : list (gostring * gval)) :
  Forall (fun p => fst p <> []) ps -> forall k,
  ctx_ValueBy (ctx_WithValues str (flat_map (fun p => [GStr (fst p); snd p]) ps) ctx_TODO) k =
  match find (fun p => str_eqb (fst p) k) (rev ps) with Some p => snd p | None => GNil end.
Proof. exact (@ctx_fresh str ps). Qed.
Print Assumptions C51_fresh.
(** the entry is that of the last Next, also among NextName, Reset and additions *)
Theorem C51_entry_any ops : let c := fst (crun ctx_TODO ops) in
  (forall c' k, cstep c CNext = (c', Some k) -> ctx_Entry c' = (k, ctx_ValueBy c k)) /\
  (forall c', cstep c CNext = (c', None) -> ctx_Entry c' = ctx_Entry c) /\
  ctx_Entry (fst (cstep c CNextName)) = ctx_Entry c /\
  ((forall v, ~ In (CAdd [] v) ops) -> ctx_Entry (fst (cstep c CReset)) = ([], GNil)).
Proof. exact (@ctx_entry_any ops). Qed.
Print Assumptions C51_entry_any.
Example C51_entry_case : let c := fst (crun ctx_TODO [CAdd (b "b") (GInt 1); CAdd (b "a") (GInt 2); CNext; CNextName]) in
  ctx_Entry c = (b "a", GInt 2) /\ snd (cstep c CNext) = None /\ ctx_ValueBy c (b "c") = GNil.
Proof. split; [run|]. split; run. Qed.
Theorem C51_shared_refuted :
  let c := ctx_add (ctx_add ctx_TODO (s2b "a"%string) GNil) (s2b "b"%string) GNil in
  snd (crun c [CNextName; CNext; CNext]) = [Some (s2b "b"%string); None].
Proof. exact (@ctx_shared_refuted ). Qed.
Print Assumptions C51_shared_refuted.
Theorem C51_late_refuted :
  let c := ctx_add ctx_TODO (s2b "a"%string) GNil in
  snd (crun c [CNext; CAdd (s2b "b"%string) GNil; CNext]) = [Some (s2b "a"%string); None].
Proof. exact (@ctx_add_late_refuted ). Qed.
Print Assumptions C51_late_refuted.
Theorem C51_values_refuted :
  let c := ctx_WithValues (fun _ => None) [GStr []; GStr (s2b "x"%string); GStr (s2b "k"%string); GStr (s2b "v"%string)] ctx_TODO in
  c_vals c = [(s2b "x"%string, GStr (s2b "k"%string))].
Proof. exact (@ctx_with_values_refuted ). Qed.
Print Assumptions C51_values_refuted.
Example C51_case :
  let c := ctx_WithValues (fun _ => None) [GStr (b "b"); GInt 1; GStr (b "a"); GInt 2] ctx_TODO in
  ctx_ok c /\ plainops [CNext; CAdd (b "c") GNil; CNext] /\
  snd (crun (ctx_Reset c) (CNext :: [CNext; CAdd (b "c") GNil; CNext])) = [Some (b "a"); Some (b "b"); None] /\
  snd (crun c [CNext; CReset; CNext; CNext; CNext]) = [Some (b "a"); Some (b "a"); Some (b "b"); None].
Proof.
  split; [apply ctx_ok_values; constructor|]. split; [repeat constructor|]. split; run.
Qed.

(** ** C52: the recursive mode *)
Theorem C52_refuted fuel h : st_RecursiveMode fuel h = Fuel.
Proof. exact (@store_mode_refuted fuel h). Qed.
Print Assumptions C52_refuted.
Theorem C52_trie vs :
  RecursiveMode (fold_left vstep vs defaultHdl) = ModeNone /\ (forall v, In v vs -> picks_mode v = None) \/
  exists a v b, vs = a ++ v :: b /\ picks_mode v = Some (RecursiveMode (fold_left vstep vs defaultHdl)) /\
    forall w, In w b -> picks_mode w = None.
Proof. exact (@trie_mode vs). Qed.
Print Assumptions C52_trie.
Example C52_case : RecursiveMode (fold_left vstep [VR; VPre [b "app"]; VDelim 47%N] defaultHdl) = ModeDown.
Proof. run. Qed.

(** ** C61: quoting *)
Theorem C61_quote s : Forall byte s -> exists q, quote s = Ok q /\ unquote q = Some s /\ Forall (fun c => (32 <= c < 128)%N) q.
Proof. exact (@quote_spec s). Qed.
Print Assumptions C61_quote.
Theorem C61_inj a b : Forall byte a -> Forall byte b -> quote a = quote b -> a = b.
Proof. exact (@quote_inj a b). Qed.
Print Assumptions C61_inj.
Example C61_case : let s := [34; 97; 92; 10; 0xC3; 0xA9; 0xFF; 0xEF; 0xBF; 0xBD]%N in
  Forall byte s /\ quote s = Ok (b """\""a\\\x0a\xc3\xa9\xff\xef\xbf\xbd""").
Proof. split; [repeat constructor; vm_compute; reflexivity|run]. Qed.

(** ** C62: flattened HCL *)
Theorem C62_single v : hcl_flat (hclVal v) = true.
Proof. exact (@hcl_no_single v). Qed.
Print Assumptions C62_single.
Theorem C62_get ks : forall v, nget (hclVal v) ks = option_map hclVal (hget v ks).
Proof. exact (@hcl_get ks). Qed.
Print Assumptions C62_get.
Theorem C62_keeps v : match v with GMap _ | GMaps [_] => True | _ => hclVal v = v end.
Proof. exact (@hcl_keeps v). Qed.
Print Assumptions C62_keeps.
Theorem C62_idem v : hclVal (hclVal v) = hclVal v.
Proof. exact (@hcl_idem v). Qed.
Print Assumptions C62_idem.
Theorem C62_repeated_refuted m1 m2 l : hclVal (GMaps (m1 :: m2 :: l)) = GMaps (m1 :: m2 :: l).
Proof. exact (@hcl_repeated_refuted m1 m2 l). Qed.
Print Assumptions C62_repeated_refuted.
Example C62_case :
  flattenHCL [(b "app", GMaps [[(b "db", GMaps [[(b "port", GInt 1)]])]]); (b "l", GMaps [[(b "x", GMaps [[]])]; []])] =
  [(b "app", GMap [(b "db", GMap [(b "port", GInt 1)])]); (b "l", GMaps [[(b "x", GMaps [[]])]; []])].
Proof. run. Qed.

(** ** C63: the gob codec *)
Theorem C63_marshal_refuted enc p m : snd (gob_Marshal enc p m) = [].
Proof. exact (@gob_marshal_refuted enc p m). Qed.
Print Assumptions C63_marshal_refuted.
Theorem C63_unmarshal_refuted decode p b b1 b2 :
  gob_Unmarshal decode (fst (gob_Unmarshal decode p b)) b1 = gob_Unmarshal decode (fst (gob_Unmarshal decode p b)) b2.
Proof. exact (@gob_unmarshal_refuted decode p b b1 b2). Qed.
Print Assumptions C63_unmarshal_refuted.
Theorem C63_first decode e b : snd (gob_Unmarshal decode (GobS None e) b) = fst (decode b).
Proof. exact (@gob_unmarshal_first decode e b). Qed.
Print Assumptions C63_first.
