(** The properties of several Loads one after the other (C222 - C225): only statements.

    [gives json os m]: the source that the options [os] name gives the map [m], or nothing because it reports an error.
    [layers str h flat oss]: for every Load the keys and values its map has below its prefix; a Load that failed has none.
    [loads str json oss s t]: the Loads, one after the other, whatever they answer.  [flat_left os f]: the last flag for
    flattening before the first prefix among the options. *)
From Coq Require Import String.
From Coq Require Import List NArith ZArith Bool Arith Lia.
From Verif Require Import GoStr Utf8 Node Trie Spec Refine ApiRefine Reach Derived Derived2 Cvter Nested Store StoreProofs MergeProofs LoadProofs Follow Samples Layers.
Import ListNotations.
Open Scope nat_scope.
Open Scope list_scope.

Ltac run := vm_compute; reflexivity.
Definition lb (s : string) : gostring := s2b s.
Definition l_s : store := Sto defaultHdl false [] [] [] [] None false false.
Definition l_str : gval -> gostring := fun _ => [].
Definition l_json : gostring -> option gmap * option lerr := fun _ => (None, Some (EOther 7)).
Definition of_map (m : gmap) : provider := Prov (Some (map (fun e => (fst e, Pkg (snd e) [] [] GNil)) m), None) None None None None.
(** defaults, a file that is not there, and overrides below a prefix *)
Definition l_defaults : list lopt := [LProvider (of_map [(lb "app", GMap [(lb "port", GInt 80); (lb "host", GStr (lb "h"))])])].
Definition l_missing : list lopt := [LProvider (Prov (None, Some (EOther 2)) None None None None)].
Definition l_over : list lopt := [LProvider (of_map [(lb "port", GInt 8080)]); LStorePrefix (lb "app")].
Definition l_three : list (list lopt * option gmap) :=
  [(l_defaults, Some [(lb "app", GMap [(lb "port", GInt 80); (lb "host", GStr (lb "h"))])]); (l_missing, None); (l_over, Some [(lb "port", GInt 8080)])].
Lemma l_three_gives : Forall (fun x => gives l_json (fst x) (snd x)) l_three.
Proof.
  repeat constructor.
  - refine (G_read l_json l_defaults _ [(lb "app", Pkg (GMap [(lb "port", GInt 80); (lb "host", GStr (lb "h"))]) [] [] GNil)] eq_refl eq_refl).
  - refine (G_fails l_json l_missing _ None 2 eq_refl eq_refl).
  - refine (G_read l_json l_over _ [(lb "port", Pkg (GInt 8080) [] [] GNil)] eq_refl eq_refl).
Qed.

(** ** C222: a key has the value of the last source that has it *)
Theorem C222_last str json oss s t a L b k : reached t -> so_loading s = false -> Forall (fun x => gives json (fst x) (snd x)) oss ->
  layers str (so_h s) (so_flat s) oss = a ++ L :: b -> In k (map fst L) -> (forall L', In L' b -> ~ In k (map fst L')) ->
  exists s' t' v, loads str json (map fst oss) s t = Ok (s', t') /\ assoc_last L k None = Some v /\ data_at t' k = Some v.
Proof. exact (@loads_last str json oss s t a L b k). Qed.
Print Assumptions C222_last.
Theorem C222_other str json oss s t k : reached t -> so_loading s = false -> Forall (fun x => gives json (fst x) (snd x)) oss ->
  (forall L, In L (layers str (so_h s) (so_flat s) oss) -> ~ In k (map fst L)) ->
  exists s' t', loads str json (map fst oss) s t = Ok (s', t') /\ data_at t' k = data_at t k.
Proof. exact (@loads_other str json oss s t k). Qed.
Print Assumptions C222_other.
(** no key is marked as modified by it, and descriptions, comments and tags stay *)
Theorem C222_marks str json oss s t : reached t -> so_loading s = false -> Forall (fun x => gives json (fst x) (snd x)) oss ->
  exists s' t', loads str json (map fst oss) s t = Ok (s', t') /\ so_loading s' = false /\
    (forall k, mod_at t' k = mod_at t k) /\ (forall k, meta_at t' k = meta_at t k).
Proof.
  intros R HL F. destruct (loads_spec str json oss s t R HL F) as (s' & t' & E & _ & L & _ & M & T). exists s', t'. auto.
Qed.
Print Assumptions C222_marks.
Example C222_case : Forall (fun x => gives l_json (fst x) (snd x)) l_three /\
  layers l_str defaultHdl false l_three =
    [[(lb "app.port", GInt 80); (lb "app.host", GStr (lb "h"))]; []; [(lb "app.port", GInt 8080)]] /\
  exists s' t', loads l_str l_json (map fst l_three) l_s newTrie = Ok (s', t') /\
    data_at t' (lb "app.port") = Some (GInt 8080) /\ data_at t' (lb "app.host") = Some (GStr (lb "h")) /\ data_at t' (lb "x") = None.
Proof. split; [exact l_three_gives|]. split; [run|]. do 2 eexists. split; [run|]. repeat split; run. Qed.

(** ** C223: loading everything once more changes nothing *)
Theorem C223_again str json oss s t : reached t -> so_loading s = false -> Forall (fun x => gives json (fst x) (snd x)) oss ->
  Forall (fun x => no_flat (fst x)) oss ->
  exists s1 t1 s2 t2, loads str json (map fst oss) s t = Ok (s1, t1) /\ loads str json (map fst oss) s1 t1 = Ok (s2, t2) /\
    forall k, data_at t2 k = data_at t1 k.
Proof. exact (@loads_again str json oss s t). Qed.
Print Assumptions C223_again.
Example C223_case : Forall (fun x => no_flat (fst x)) l_three.
Proof. repeat constructor. Qed.

(** ** C224: WithStoreFlattenSlice is for the Load it is given to *)
Definition l_list : list lopt := [LProvider (of_map [(lb "l", GList [GInt 1; GInt 2])])].
Definition l_flat : list lopt := [LProvider (of_map [(lb "z", GInt 1)]); LFlat true].
Theorem C224_refuted : exists s1 t1 s2 t2,
  loads l_str l_json [l_list] l_s newTrie = Ok (s1, t1) /\ data_at t1 (lb "l") = Some (GList [GInt 1; GInt 2]) /\
  loads l_str l_json [l_flat; l_list] l_s newTrie = Ok (s2, t2) /\ data_at t2 (lb "l") = None /\ data_at t2 (lb "l.1") = Some (GInt 2).
Proof. do 4 eexists. split; [run|]. split; [run|]. split; [run|]. split; run. Qed.
Print Assumptions C224_refuted.
(** so loading everything once more may change the data *)
Theorem C224_refuted_again : exists s1 t1 s2 t2,
  loads l_str l_json [l_list; l_flat] l_s newTrie = Ok (s1, t1) /\ data_at t1 (lb "l.1") = None /\
  loads l_str l_json [l_list; l_flat] s1 t1 = Ok (s2, t2) /\ data_at t2 (lb "l.1") = Some (GInt 2).
Proof. do 4 eexists. split; [run|]. split; [run|]. split; run. Qed.
Print Assumptions C224_refuted_again.

(** ** C225: which flag a Load leaves *)
Theorem C225_left str json s t os r : so_loading s = false -> Load str json s t os = Ok r ->
  so_flat (lr_s r) = flat_left os (so_flat s) /\ so_h (lr_s r) = so_h s.
Proof. exact (@load_left str json s t os r). Qed.
Print Assumptions C225_left.
Example C225_case : flat_left l_flat false = true /\ flat_left (LStorePrefix (lb "app") :: l_flat) false = false /\ flat_left l_over false = false.
Proof. repeat split. Qed.
