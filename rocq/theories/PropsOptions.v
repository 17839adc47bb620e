(** The options of Load, the settings of the providers and the dummy store (C99, C159 - C164): only statements.

    [oLoad str json s t os]: Load on the store [s] with the tree [t] and the options [os]: its result, and the provider
    as it is left; [loads] drops the latter.  [final f os]: the last of the options that [f] takes.  [settled os v]: the
    provider [v] with the codec and the position of [os], if any.  [plains p os]: the options [os] for a provider that
    answers as [p]; [Load] is that of C43 - C45 and C55. *)
From Coq Require Import String.
From Coq Require Import List NArith ZArith Bool Arith Lia.
From Verif Require Import GoStr Utf8 Node Reach Spec Trie Cvter Store Misc Provider Watch Options OptionsProofs StoreProofs LoadProofs Dummy DummyProofs.
Import ListNotations.
Open Scope nat_scope.
Open Scope list_scope.

Ltac run := vm_compute; reflexivity.

(** ** C159, C163: the position of a Load *)
(** Load with all options is Load for the provider that the options settle *)
Theorem C163_load str json s t os v p :
  so_loading s = false -> final of_provider os = Some v -> answers (settled os v) = Ok p ->
  oLoad str json s t os = (do r <- Load str json s t (plains p os); Ok (r, Some (settled os v))).
Proof. exact (@oload_is str json s t os v p). Qed.
Print Assumptions C163_load.
(** for env, flags, maps, file and fs a position changes nothing of what is loaded, nor where *)
Theorem C163_inert str json s t os1 q os2 :
  (forall v, final of_provider (os1 ++ os2) = Some v -> local v) ->
  loads (oLoad str json s t (os1 ++ OPosition q :: os2)) = loads (oLoad str json s t (os1 ++ os2)).
Proof. exact (@position_inert str json s t os1 q os2). Qed.
Print Assumptions C163_inert.
(** for consul, read recursively, it says which pairs are read *)
Theorem C163_consul str json s t os v a q o ps meta :
  so_loading s = false -> final of_provider os = Some v -> v_src v = SConsul o ps true meta None ->
  final of_pos os = Some (a :: q) ->
  exists p d, oLoad str json s t os = (do r <- Load str json s t (plains p os); Ok (r, Some (settled os v))) /\
    pv_read p = (Some d, None) /\
    (forall k x, In (k, x) d -> exists pr, In pr ps /\ has_prefix (a :: q) (kv_key pr) = true /\
                                k = NormalizeKey o (kv_key pr) /\ x = Pkg (GStr (kv_val pr)) [] [] (meta pr)) /\
    (forall pr, In pr ps -> has_prefix (a :: q) (kv_key pr) = true -> In (NormalizeKey o (kv_key pr)) (map fst d)).
Proof. exact (@consul_position str json s t os v a q o ps meta). Qed.
Print Assumptions C163_consul.
(** likewise for etcd *)
Theorem C163_etcd str json s t os v a q o ps :
  so_loading s = false -> final of_provider os = Some v -> v_src v = SEtcd o ps true None None ->
  final of_pos os = Some (a :: q) ->
  exists p d, oLoad str json s t os = (do r <- Load str json s t (plains p os); Ok (r, Some (settled os v))) /\
    pv_read p = (Some d, None) /\
    (forall k x, In (k, x) d -> exists pr, In pr ps /\ has_prefix (a :: q) (fst pr) = true /\
                                k = NormalizeKey o (fst pr) /\ x = Pkg (GStr (snd pr)) [] [] GNil) /\
    (forall pr, In pr ps -> has_prefix (a :: q) (fst pr) = true -> In (NormalizeKey o (fst pr)) (map fst d)).
Proof. exact (@etcd_position str json s t os v a q o ps). Qed.
Print Assumptions C163_etcd.
(** for consul, not recursive, a position without a key makes Load panic *)
Theorem C163_consul_panic str json s t os v a q o ps meta :
  so_loading s = false -> final of_provider os = Some v -> v_src v = SConsul o ps false meta None ->
  final of_pos os = Some (a :: q) -> (forall pr, In pr ps -> kv_key pr <> a :: q) ->
  oLoad str json s t os = Panic.
Proof. exact (@consul_missing str json s t os v a q o ps meta). Qed.
Print Assumptions C163_consul_panic.

(** a file that cannot be read, or a server that does not answer: Load gives that error and changes nothing *)
Theorem C163_down str json s t os v n : so_loading s = false -> final of_provider os = Some v -> down v (EOther n) ->
  exists r, oLoad str json s t os = Ok (r, Some (settled os v)) /\ lr_err r = Some (EOther n) /\ lr_ev r = [] /\ lr_t r = t /\ lr_wr r = None /\
    so_loading (lr_s r) = false.
Proof. exact (@oload_down str json s t os v n). Qed.
Print Assumptions C163_down.
(** a file is decoded by the codec of the options, else that of the provider, else json, and what it decodes to is stored *)
Theorem C163_file str (json : codec) s t os v b m : reached t -> so_loading s = false -> final of_provider os = Some v -> v_src v = SBytes b None ->
  decodes json os v b = (Some m, None) ->
  exists p r, oLoad str json s t os = Ok (r, Some (settled os v)) /\ lr_err r = None /\
    holds_after (lplaces str (ld_s (the_loader s (plains p os))) m) t (lr_t r).
Proof. exact (@oload_file str json s t os v b m). Qed.
Print Assumptions C163_file.

Definition st1 : store := Sto defaultHdl false [] [] [] [] None false true.
Definition strx : gval -> gostring := fun v => match v with GStr s => s | _ => [] end.
Definition json1 : codec := fun b => (Some [(s2b "by"%string, GStr (s2b "json"%string))], None).
Definition yaml1 : codec := fun b => (Some [(s2b "by"%string, GStr (s2b "yaml"%string))], None).
Definition kMap : pvdr := Pv [] [] None (SMap [(s2b "k"%string, Pkg (GInt 1) [] [] GNil)]) None.
Definition kEnv : pvdr := Pv [] [] None (SNames [(s2b "home"%string, Pkg (GStr (s2b "/root"%string)) [] [] GNil)]) None.
Definition kFile : pvdr := Pv [] [] None (SBytes (s2b "{}"%string) None) None.
Definition pair1 k v := KV (s2b k) (s2b v) 1 1.
Definition kConsul : pvdr := Pv [] [] None (SConsul (NkO [] [] (s2b "."%string))
  [pair1 "app/a" "1"; pair1 "lib/b" "2"]%string true (fun _ => GNil) None) None.
Definition holds (r : res (lres * option pvdr)) (k : string) : option gval :=
  match r with Ok (r, _) => option_map a_data (t_get (lr_t r) (s2b k)) | _ => None end.

(** WithPosition does not put the data below the position: the key is where it would be without; WithStorePrefix does *)
Theorem C159_refuted :
  holds (oLoad strx json1 st1 newTrie [OProvider kMap; OPosition (s2b "app"%string)]) "k" = Some (GInt 1) /\
  holds (oLoad strx json1 st1 newTrie [OProvider kMap; OPosition (s2b "app"%string)]) "app.k" = None /\
  holds (oLoad strx json1 st1 newTrie [OProvider kEnv; OPosition (s2b "app"%string)]) "app.home" = None /\
  holds (oLoad strx json1 st1 newTrie [OProvider kFile; OPosition (s2b "app"%string)]) "app.by" = None /\
  holds (oLoad strx json1 st1 newTrie [OProvider kMap; OStorePrefix (s2b "app"%string)]) "app.k" = Some (GInt 1).
Proof. repeat split; run. Qed.
Print Assumptions C159_refuted.

(** ** C99: reading one key of consul; the pairs of the server are [ps], and the position of the provider says which is read *)
Theorem C99_one v o ps meta p : v_src v = SConsul o ps false meta None -> NoDup (map kv_key ps) -> In p ps -> kv_key p = v_prefix v ->
  exists a, answers v = Ok a /\ pv_read a = (Some [(NormalizeKey o (v_prefix v), Pkg (GStr (kv_val p)) [] [] (meta p))], None).
Proof. exact (@consul_one v o ps meta p). Qed.
Print Assumptions C99_one.
Theorem C99_missing v o ps meta : v_src v = SConsul o ps false meta None -> (forall p, In p ps -> kv_key p <> v_prefix v) ->
  answers v = Panic.
Proof. exact (@consul_none v o ps meta). Qed.
Print Assumptions C99_missing.
Definition kOne (pos : string) : pvdr := Pv (s2b pos) [] None (SConsul (NkO [] [] (s2b "."%string))
  [pair1 "app/a" "1"; pair1 "lib/b" "2"]%string false (fun _ => GNil) None) None.
Theorem C99_missing_refuted : exists v o ps meta, v_src v = SConsul o ps false meta None /\ NoDup (map kv_key ps) /\ ps <> [] /\
  answers v = Panic.
Proof.
  exists (kOne "app/b"). do 3 eexists. split; [reflexivity|]. split; [|split; [discriminate|run]].
  repeat (constructor; [vm_compute; intros X; repeat (destruct X as [X|X]; [discriminate X|]); destruct X|]). constructor.
Qed.
Print Assumptions C99_missing_refuted.
Example C99_case : match answers (kOne "app/a") with Ok a => pv_read a | _ => (None, None) end =
  (Some [(s2b "app.a"%string, Pkg (GStr (s2b "1"%string)) [] [] GNil)], None).
Proof. run. Qed.
Example C163_ex : let os := [OProvider kConsul; OPosition (s2b "app"%string)] in
  holds (oLoad strx json1 st1 newTrie os) "app.a" = Some (GStr (s2b "1"%string)) /\
  holds (oLoad strx json1 st1 newTrie os) "lib.b" = None /\
  holds (oLoad strx json1 st1 newTrie [OProvider kConsul]) "lib.b" = Some (GStr (s2b "2"%string)) /\
  final of_provider os = Some kConsul /\ local kMap /\ local kEnv /\ local kFile.
Proof. repeat split; run || exact I. Qed.

Example C163_down_ex : down (Pv [] [] None (SBytes [] (Some (EOther 2))) None) (EOther 2) /\
  down (Pv [] [] None (SEtcd (NkO [] [] []) [] true None (Some (EOther 3))) None) (EOther 3) /\
  decodes json1 [OProvider kFile; OCodec yaml1] kFile (s2b "{}"%string) = (Some [(s2b "by"%string, GStr (s2b "yaml"%string))], None) /\
  decodes json1 [OProvider kFile] kFile (s2b "{}"%string) = (Some [(s2b "by"%string, GStr (s2b "json"%string))], None).
Proof. repeat split; run. Qed.

(** ** C160, C164: the options of a Load and later Loads *)
(** a provider keeps what a Load gave it: which provider Load leaves *)
Theorem C164_left str json s t os r pv : so_loading s = false -> oLoad str json s t os = Ok (r, pv) ->
  pv = option_map (settled os) (final of_provider os).
Proof. exact (@oload_left str json s t os r pv). Qed.
Print Assumptions C164_left.
(** options that name a codec and a position are not affected by earlier ones *)
Theorem C164_again os os' v :
  final of_codec os <> None -> (exists a p, final of_pos os = Some (a :: p)) ->
  settled os (settled os' v) = settled os v.
Proof. exact (@settled_again os os' v). Qed.
Print Assumptions C164_again.
(** other ones are: the second Load names no codec, and decodes with that of the first, not with json *)
Theorem C160_refuted : exists r v,
  oLoad strx json1 st1 newTrie [OProvider kFile; OCodec yaml1] = Ok (r, Some v) /\
  holds (oLoad strx json1 st1 newTrie [OProvider v]) "by" = Some (GStr (s2b "yaml"%string)) /\
  holds (oLoad strx json1 st1 newTrie [OProvider kFile]) "by" = Some (GStr (s2b "json"%string)).
Proof. eexists; eexists; repeat split; run. Qed.
Print Assumptions C160_refuted.
(** the second Load names no position, and reads below that of the first *)
Theorem C160_refuted_position : exists r v,
  oLoad strx json1 st1 newTrie [OProvider kConsul; OPosition (s2b "app"%string)] = Ok (r, Some v) /\
  holds (oLoad strx json1 st1 newTrie [OProvider v]) "lib.b" = None /\
  holds (oLoad strx json1 st1 newTrie [OProvider kConsul]) "lib.b" = Some (GStr (s2b "2"%string)).
Proof. eexists; eexists; repeat split; run. Qed.
Print Assumptions C160_refuted_position.
Example C164_ex : let os := [OCodec yaml1; OPosition (s2b "app"%string)] in
  final of_codec os <> None /\ (exists a p, final of_pos os = Some (a :: p)).
Proof. split; [discriminate|]. eexists; eexists; run. Qed.

(** ** C161: the position of a provider *)
(** for maps, file, fs, consul and etcd GetPosition gives what WithPosition set *)
Theorem C161_round_trip v p : ~ (exists d, v_src v = SNames d) -> pv_GetPosition (pv_WithPosition v p) = p.
Proof. exact (@round_trip v p). Qed.
Print Assumptions C161_round_trip.
(** for env and flags it gives the filter for names, whatever was set *)
Theorem C161_names v p d : v_src v = SNames d -> pv_GetPosition (pv_WithPosition v p) = pv_GetPosition v.
Proof. exact (@round_trip_names v p d). Qed.
Print Assumptions C161_names.
Theorem C161_refuted : exists v p, pv_GetPosition (pv_WithPosition v p) <> p.
Proof. exists kEnv, (s2b "app"%string). discriminate. Qed.
Print Assumptions C161_refuted.
Example C161_ex : ~ (exists d, v_src kConsul = SNames d) /\ exists d, v_src kEnv = SNames d.
Proof. split; [intros [d H]; discriminate|eexists; reflexivity]. Qed.

(** ** C162: the dummy store *)
(** what a dummy store answers like a new, empty one, for every handle and path *)
Theorem C162_agrees rf h s path :
  Get rf h newTrie path = Ok (du_Get s path) /\
  MustGet rf h newTrie path = Ok (du_MustGet s path) /\
  Remove rf h newTrie path = Ok (newTrie, snd (du_Remove s path)) /\
  GetEx rf h newTrie path = Ok (du_GetEx s path).
Proof. exact (@dummy_agrees_always rf h s path). Qed.
Print Assumptions C162_agrees.
(** and for every path that is not empty *)
Theorem C162_agrees_paths rf h s path : full h path <> [] ->
  Get rf h newTrie path = Ok (du_Get s path) /\
  MustGet rf h newTrie path = Ok (du_MustGet s path) /\
  Has rf h newTrie path = Ok (du_Has s path) /\
  Remove rf h newTrie path = Ok (newTrie, snd (du_Remove s path)) /\
  RemoveEx rf h newTrie path = Ok (newTrie, snd (fst (fst (du_RemoveEx s path))), snd (fst (du_RemoveEx s path)), snd (du_RemoveEx s path)) /\
  GetEx rf h newTrie path = Ok (du_GetEx s path) /\
  (forall d c, SetComment rf h newTrie path d c = Ok (newTrie, snd (du_SetComment s path d c))) /\
  (forall g, SetTag rf h newTrie path g = Ok (newTrie, snd (du_SetTag s path g))).
Proof. exact (@dummy_agrees rf h s path). Qed.
Print Assumptions C162_agrees_paths.
(** Set reports the same old value, but no node, and leaves the dummy store as it is *)
Theorem C162_set h s path v : exists t id,
  Set_ h newTrie path v = Ok (t, id, snd (du_Set s path v)) /\ snd (fst (du_Set s path v)) <> Some id /\
  fst (fst (du_Set s path v)) = s.
Proof. exact (@dummy_set h s path v). Qed.
Print Assumptions C162_set.
(** SetPrefix and Prefix agree unless a part is empty *)
Theorem C162_prefix s h ps : hdelim h = dotChar -> (forall x, In x ps -> x <> []) ->
  hprefix (setPrefix h ps) = du_Prefix (du_SetPrefix s ps).
Proof. exact (@dummy_prefix s h ps). Qed.
Print Assumptions C162_prefix.
(** the delimiter is that of a new store; after SetDelimiter the two agree for no other one; prefixes that agree still do *)
Theorem C162_delimiter h s d : du_Delimiter s = hdelim defaultHdl /\
  (du_Delimiter (du_SetDelimiter s d) = hdelim (Trie.setDelimiter h d) <-> d = 46%N) /\
  (hprefix h = du_Prefix s -> hprefix (Trie.setDelimiter h d) = du_Prefix (du_SetDelimiter s d)).
Proof. split; [reflexivity|]. split; [split; [intros E; symmetry; exact E|intros ->; reflexivity]|intros E; exact E]. Qed.
Print Assumptions C162_delimiter.
(** WithPrefix: the two agree only if nothing is added *)
Theorem C162_view h s ps : hprefix h = du_Prefix s ->
  (hprefix (withPrefix h ps) = du_Prefix (du_WithPrefix s ps) <-> (forall x, In x ps -> x = [])).
Proof. exact (@dummy_view h s ps). Qed.
Print Assumptions C162_view.
(** RecursiveMode answers as the trie of a new store does, and of N, but not of R and BR; that of a store never answers (C52) *)
Theorem C162_mode s h fuel : du_RecursiveMode s = RecursiveMode defaultHdl /\ du_RecursiveMode s = RecursiveMode (viewN h) /\
  du_RecursiveMode s <> RecursiveMode (viewR h) /\ du_RecursiveMode s <> RecursiveMode (viewBR h) /\
  st_RecursiveMode fuel h <> Ok (du_RecursiveMode s).
Proof.
  split; [reflexivity|]. split; [reflexivity|]. split; [discriminate|]. split; [discriminate|].
  induction fuel as [|f IH]; [discriminate|exact IH].
Qed.
Print Assumptions C162_mode.
(** Walk visits the root of a new store, for every path; Locate says that a path is matched in part *)
Theorem C162_walk rf h s path :
  Walk rf h newTrie path = Ok [root newTrie] /\ Walk rf h newTrie path <> Ok (du_Walk s path).
Proof. exact (@dummy_walk rf h s path). Qed.
Print Assumptions C162_walk.
Theorem C162_locate rf h s path : full h path <> [] ->
  Locate rf h newTrie path = Ok (None, false, true, false, []) /\ Locate rf h newTrie path <> Ok (du_Locate s path).
Proof. exact (@dummy_locate rf h s path). Qed.
Print Assumptions C162_locate.
(** the getters of a type never agree: an empty store answers with the default and an error *)
Theorem C162_getters {A} rf h s path (conv : gval -> A) (zero : A) defs :
  GetX rf conv zero h newTrie path defs = Ok (last_default zero defs, false) /\
  MustX rf conv zero h newTrie path defs = Ok (last_default zero defs) /\
  (defs = [] -> MustX rf conv zero h newTrie path defs = Ok (du_MustX zero s path defs)) /\
  GetX rf conv zero h newTrie path defs <> Ok (du_GetX zero s path defs).
Proof. exact (@dummy_getters A rf h s path conv zero defs). Qed.
Print Assumptions C162_getters.
(** nor do those of descriptions, comments and tags *)
Theorem C162_meta rf h s path :
  GetDesc rf h newTrie path = Ok ([], false) /\ GetTag rf h newTrie path = Ok (GNil, false) /\
  GetComment rf h newTrie path = Ok ([], false) /\
  snd (du_GetDesc s path) = true /\ snd (du_GetTag s path) = true /\ snd (du_GetComment s path) = true.
Proof. exact (@dummy_meta rf h s path). Qed.
Print Assumptions C162_meta.
(** the default is ignored; Has of the empty path, Locate, Walk, Dup (a nil store) and the joining of prefixes differ *)
Theorem C162_refuted : exists p,
  MustX 1 (fun _ => 0%Z) 0%Z defaultHdl newTrie p [7%Z] = Ok 7%Z /\ du_MustX 0%Z newDummy p [7%Z] = 0%Z /\
  Has 1 defaultHdl newTrie [] = Ok true /\ du_Has newDummy [] = false /\
  Locate 1 defaultHdl newTrie p = Ok (None, false, true, false, []) /\ du_Locate newDummy p = (None, false, false, false, []) /\
  Walk 1 defaultHdl newTrie p = Ok [root newTrie] /\ du_Walk newDummy p = [] /\
  (forall s, du_Dup s = None) /\
  hprefix (setPrefix defaultHdl [[]; p]) <> du_Prefix (du_SetPrefix newDummy [[]; p]).
Proof. exists (s2b "a.b"%string). repeat (split; [run|]). vm_compute. discriminate. Qed.
Print Assumptions C162_refuted.
Example C162_view_ex : hprefix defaultHdl = du_Prefix newDummy /\
  hprefix (withPrefix defaultHdl [s2b "a"%string]) = s2b "a"%string /\ du_Prefix (du_WithPrefix newDummy [s2b "a"%string]) = [].
Proof. repeat split. Qed.
Example C162_ex : full defaultHdl (s2b "a"%string) <> [] /\ hdelim defaultHdl = dotChar /\
  (forall x, In x [s2b "app"%string; s2b "x"%string] -> x <> []).
Proof. split; [discriminate|]. split; [run|]. intros x [<-|[<-|[]]]; discriminate. Qed.
