(** The properties of the hcl and hjson codecs (C109 - C112): only statements.

    [hcl_Marshal opaque m]: the attributes and blocks codecs/hcl writes for the map [m]; [opaque] is what go-cty makes of
    the values the model does not look into.  [read_item]: the key and value a reader finds in an attribute or block.
    [document v]: nested maps of booleans, integers, strings and non-empty lists of one kind.  [formless opaque v]: nil,
    a map[any]any, a packed value, or a value go-cty has no form for.
    [hjson_UnmarshalEx flat n]: the map codecs/hjson makes of the document [n].  [hget n ks]: the node at the path [ks] of
    the document; [pget m ks]: the entry at the path [ks] of the map.  [regular flat n]: the keys of objects are distinct and there
    are no arrays unless [flat] is off.  [denotes n v]: [v] is the value of the node [n]: nil for null, a list for an array. *)
From Coq Require Import String.
From Coq Require Import List NArith ZArith Bool Arith Lia.
From Verif Require Import GoStr Utf8 Trie Cvter Nested Export MergeProofs Codecs CodecProofs.
Import ListNotations.
Open Scope nat_scope.
Open Scope list_scope.

Ltac run := vm_compute; reflexivity.
Definition b (s : string) : gostring := s2b s.
Definition op0 : N -> option cval := fun _ => None.

(** ** C109: Marshal of hcl writes every value or reports an error (it never reports one) *)
Theorem C109_refuted : exists m is, hcl_Marshal op0 m = Ok is /\ mget m (b "a") = Some (GAMap [(GStr (b "x"), GInt 1)]) /\
  mget (map read_item is) (b "a") = Some GNil.
Proof. exists [(b "a", GAMap [(GStr (b "x"), GInt 1)])]. eexists. split; [run|]. split; run. Qed.
Print Assumptions C109_refuted.
Theorem C109_refuted_dropped : exists m is, hcl_Marshal op0 m = Ok is /\ mget m (b "a") = Some (GList [GInt 1; GNil; GInt 2]) /\
  mget (map read_item is) (b "a") = Some (GList [GInt 1; GInt 2]).
Proof. exists [(b "a", GList [GInt 1; GNil; GInt 2])]. eexists. split; [run|]. split; run. Qed.
Print Assumptions C109_refuted_dropped.
Theorem C109_refuted_panic : exists m, mget m (b "a") = Some (GList [GInt 1; GStr (b "x")]) /\ hcl_Marshal op0 m = Panic.
Proof. exists [(b "a", GList [GInt 1; GStr (b "x")])]. split; run. Qed.
Print Assumptions C109_refuted_panic.

(** ** C110: what Marshal of hcl writes *)
Theorem C110_written opaque  m : (forall k v, In (k, v) m -> document v) ->
  exists is, hcl_Marshal opaque m = Ok is /\ map read_item is = m.
Proof. exact (@hcl_written opaque m). Qed.
Print Assumptions C110_written.
Theorem C110_keys opaque  m is : hcl_Marshal opaque m = Ok is -> map (fun i => fst (read_item i)) is = map fst m.
Proof. exact (@hcl_keys opaque m is). Qed.
Print Assumptions C110_keys.
Theorem C110_null opaque  m is k v : hcl_Marshal opaque m = Ok is -> In (k, v) m -> formless opaque v -> In (k, GNil) (map read_item is).
Proof. exact (@hcl_null opaque m is k v). Qed.
Print Assumptions C110_null.
Theorem C110_list opaque  l : l <> [] -> Forall scalar_or_nil l ->
  (exists t x, In x l /\ x <> GNil /\ forall y, In y l -> y <> GNil -> ordinary y t) /\
    (exists c, ctyValue opaque (GList l) = Ok (Some c) /\ back c = GList (filter not_nil l)) \/
  (forall t x, In x l -> x <> GNil -> exists y, In y l /\ y <> GNil /\ ~ ordinary y t) /\ ctyValue opaque (GList l) = Panic.
Proof. exact (@hcl_list opaque l). Qed.
Print Assumptions C110_list.
Definition doc0 : gmap := [(b "a", GInt 1); (b "m", GMap [(b "l", GList [GStr (b "x"); GStr (b "y")]); (b "t", GBool true)])].
Example C110_case : (forall k v, In (k, v) doc0 -> document v) /\
  hcl_Marshal op0 doc0 = Ok [IAttr (b "a") (CNum 1); IBlock (b "m") [IAttr (b "l") (CList [CStr (b "x"); CStr (b "y")]); IAttr (b "t") (CBool true)]].
Proof.
  split; [|run]. intros k v [H|[H|[]]]; injection H as <- <-.
  - eapply D_value. constructor.
  - apply D_map. intros k v [H|[H|[]]]; injection H as <- <-.
    + apply (D_value _ (TList TStr)). apply O_list; [discriminate|]. intros x [<-|[<-|[]]]; constructor.
    + eapply D_value. constructor.
Qed.
Example C110_case_null : hcl_Marshal op0 [(b "n", GNil)] = Ok [IAttr (b "n") CNull] /\ formless op0 GNil.
Proof. split; [run|exact I]. Qed.
Example C110_case_list : ctyValue op0 (GList [GInt 1; GNil; GInt 2]) = Ok (Some (CList [CNum 1; CNum 2])) /\
  ctyValue op0 (GList [GNil]) = Panic /\ ctyValue op0 (GList [GInt 1; GBool true]) = Panic.
Proof. split; [run|]. split; run. Qed.

(** ** C111: UnmarshalEx of hjson keeps every value *)
Definition leaf (z : Z) : hnode := HN (HScalar (GInt z)) [] [] [].
Theorem C111_refuted : exists doc, (exists n, hget doc [b "a"] = Some n /\ denotes n (GList [GInt 1; GInt 2])) /\
  hjson_UnmarshalEx true doc = [(b "a", GPkg (GMap [([], GPkg (GInt 2) [] [] GNil)]) [] [] GNil)].
Proof. exists (HN (HObj [(b "a", HN (HArr [leaf 1; leaf 2]) [] [] [])]) [] [] []). split; [eexists; split; [run|repeat constructor]|run]. Qed.
Print Assumptions C111_refuted.

(** ** C112: what UnmarshalEx of hjson has at every path *)
Theorem C112_decoded flat l x y z : regular flat (HN (HObj l) x y z) -> forall ks, ks <> [] ->
  match hget (HN (HObj l) x y z) ks with
  | Some (HN w before key after as c) =>
      exists v, pget (hjson_UnmarshalEx flat (HN (HObj l) x y z)) ks = Some (GPkg v before (key ++ after) GNil) /\
                match w with HObj _ => exists m, v = GMap m | _ => denotes c v end
  | None => pget (hjson_UnmarshalEx flat (HN (HObj l) x y z)) ks = None
  end.
Proof. exact (@hjson_decoded flat l x y z). Qed.
Print Assumptions C112_decoded.
Theorem C112_array l w before key after x y z : exists v,
  hjson_UnmarshalEx true (HN (HArr (l ++ [HN w before key after])) x y z) = [([], GPkg v before (key ++ after) GNil)] /\
  match w with HObj _ | HArr _ => exists m, v = GMap m | _ => denotes (HN w before key after) v end.
Proof. exact (@hjson_array l w before key after x y z). Qed.
Print Assumptions C112_array.
Definition doc1 : list (gostring * hnode) :=
  [(b "a", HN (HObj [(b "c", HN (HScalar (GInt 1)) (b "# one") (b "k") (b "after"))]) [] [] []); (b "s", HN (HStr (b "x")) [] [] [])].
Example C112_case : regular true (HN (HObj doc1) [] [] []) /\
  pget (hjson_UnmarshalEx true (HN (HObj doc1) [] [] [])) [b "a"; b "c"] = Some (GPkg (GInt 1) (b "# one") (b "kafter") GNil) /\
  pget (hjson_UnmarshalEx true (HN (HObj doc1) [] [] [])) [b "a"; b "d"] = None.
Proof.
  split; [|split; run]. apply R_obj.
  - repeat constructor; cbn; intuition discriminate.
  - intros k c [H|[H|[]]]; injection H as <- <-.
    + apply R_obj; [repeat constructor; cbn; intuition discriminate|]. intros k c [H|[]]; injection H as <- <-. apply R_leaf. discriminate.
    + apply R_leaf. exact I.
Qed.
