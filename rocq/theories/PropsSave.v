(** The properties of saving (C100, C101): only statements.

    [holds d t s v]: the tree [t] has the leaf [s] with the value [v] and [s] does not end with the delimiter
    [d]; [sound_key d s]: [s] has no blank and no empty segment; [single flat v]: loading stores [v] as it is;
    [tidy flat v]: a nested map with distinct keys and such values; [keeps flat enc dec]: encoding and decoding
    a tidy map gives a tidy map with the same lookups; [seg_below d a b]: the segments of [a] are above those of
    [b]; [data_at t k]: the data at the key [k]. *)
From Coq Require Import String.
From Coq Require Import List NArith ZArith Bool Arith Lia Permutation.
From Verif Require Import GoStr Utf8 Node NodeWf InsertProofs MatchProofs Trie Spec Refine ApiRefine Reach Derived Derived2 Derived3
  Derived4 Climb Cvter Nested CvterProofs Export Store StoreProofs MergeProofs LoadProofs Follow Save SaveProofs.
Import ListNotations.
Open Scope nat_scope.
Open Scope list_scope.

Ltac run := vm_compute; reflexivity.
Definition b (s : string) : gostring := s2b s.
Definition h0 : hdl := defaultHdl.
Definition id_order : gmap -> gmap := fun m => m.
Definition st0 : store := Sto h0 false [] [] [] [] None true false.
Definition str0 : gval -> gostring := fun _ => [].
Definition json0 : gostring -> option gmap * option lerr := fun _ => (None, None).
Definition tree (l : list (gostring * gval)) : tr :=
  match t_run 1 (map (fun e => (h0, OSet (fst e) (snd e))) l) newTrie with Ok (t, _) => t | _ => newTrie end.
(** save with [enc0], load with [dec0] into an empty store *)
Definition again (t : tr) : option tr :=
  match loader_SaveAs 1 id_order h0 (Some enc0) (Some (None, SkOnce None)) t with
  | Ok (Some x, None) =>
      match Load str0 json0 st0 newTrie [LProvider (Prov (None, Some ENotImpl) (Some (x, None)) None None None); LCodec dec0] with
      | Ok r => Some (lr_t r) | _ => None end
  | _ => None
  end.

(** ** C100: does SaveAs write the store?  That of the store writes nothing and says nothing; that of a loader
    loses keys above others, changes keys with empty segments, and writes nothing for an emptied store. *)
Theorem C100_store_refuted : forall co pv, store_SaveAs co pv = (None, None).
Proof. reflexivity. Qed.
Print Assumptions C100_store_refuted.
Theorem C100_above_refuted : exists t, let t1 := tree [(b "a", GInt 1); (b "a.b", GInt 2)] in
  again t1 = Some t /\ data_at t1 (runes (b "a.b")) = Some (GInt 2) /\ data_at t (runes (b "a.b")) = None.
Proof. eexists. split; [run|]. split; run. Qed.
Print Assumptions C100_above_refuted.
Theorem C100_segment_refuted : exists t, let t1 := tree [(b "a..b", GInt 1); (b "x", GInt 2)] in
  again t1 = Some t /\ data_at t1 (runes (b "a..b")) = Some (GInt 1) /\ data_at t (runes (b "a..b")) = None /\
  data_at t (runes (b "a.b")) = Some (GInt 1).
Proof. eexists. split; [run|]. split; [run|split; run]. Qed.
Print Assumptions C100_segment_refuted.
Theorem C100_emptied_refuted : exists t outs, t_run 1 [(h0, OSet (b "a") (GInt 1)); (h0, ORemove (b "a"))] newTrie = Ok (t, outs) /\
  forall enc k, loader_SaveAs 1 id_order h0 (Some enc) (Some (None, k)) t = Ok (None, None).
Proof. do 2 eexists. split; [run|]. intros enc k. reflexivity. Qed.
Print Assumptions C100_emptied_refuted.
(** errors of the codec and of the provider are returned *)
Theorem C100_errors rf order h enc pc k t m x r : GetM rf order h t [] (MOpts false true None) = Ok (Some m) -> m = x :: r ->
  loader_SaveAs rf order h (Some enc) (Some (pc, k)) t =
  Ok (match enc m with
      | inr e => (None, Some e)
      | inl c => match k with SkOnce e | SkWriter e => (Some c, e) | SkNone => (None, Some ENotImpl) end
      end).
Proof. intros E ->. unfold loader_SaveAs. rewrite E. cbn [bind save_map]. destruct (enc (x :: r)); [destruct k|]; reflexivity. Qed.
Print Assumptions C100_errors.

(** ** C101: what SaveAs of a loader wrote is loaded again *)
Theorem C101_roundtrip rf order h t flat enc dec pc :
  vreach t -> hprefix h = [] -> (hdelim h < 128)%N -> (forall m, Permutation m (order m)) ->
  (forall s v, holds (hdelim h) t s v -> single flat v = true /\ sound_key (hdelim h) s) ->
  (forall s v s' v', holds (hdelim h) t s v -> holds (hdelim h) t s' v' -> ~ seg_below (hdelim h) s' s) ->
  (exists s v, holds (hdelim h) t s v) -> keeps flat enc dec ->
  exists b, loader_SaveAs rf order h (Some enc) (Some (pc, SkOnce None)) t = Ok (Some b, None) /\
  forall str json st t0 os pv,
    reached t0 -> so_loading st = false -> no_prefix os -> hprefix (so_h st) = [] -> hdelim (so_h st) = hdelim h ->
    so_flat (ld_s (the_loader st os)) = flat ->
    ld_pv (the_loader st os) = Some pv -> pv_read pv = (None, Some ENotImpl) -> pv_once pv = Some (b, None) ->
    decoder json (the_loader st os) = dec ->
    exists r, Load str json st t0 os = Ok r /\ lr_err r = None /\
      (forall s v, holds (hdelim h) t s v -> data_at (lr_t r) (runes s) = Some v) /\
      (forall k, (forall s v, holds (hdelim h) t s v -> runes s <> k) -> data_at (lr_t r) k = data_at t0 k).
Proof. exact (@saveas_load rf order h t flat enc dec pc). Qed.
Print Assumptions C101_roundtrip.
Theorem C101_codec : keeps true enc0 dec0.
Proof. exact (@codec_exists ). Qed.
Print Assumptions C101_codec.
Definition t101 : tr := tree [(b "app.x", GInt 1); (b "app.y.z", GStr (b "v")); (b "apple", GBool true); (b "n", GOther 5)].
Lemma t101_vreach : vreach t101.
Proof.
  exists 1, (map (fun e => (h0, OSet (fst e) (snd e))) [(b "app.x", GInt 1); (b "app.y.z", GStr (b "v")); (b "apple", GBool true); (b "n", GOther 5)]).
  eexists. split; [|vm_compute; reflexivity]. repeat constructor.
Qed.
Definition l101 : list (gostring * gval) := [(b "app.x", GInt 1); (b "app.y.z", GStr (b "v")); (b "apple", GBool true); (b "n", GOther 5)].
Lemma t101_holds s v : holds 46%N t101 s v -> In (s, v) l101.
Proof.
  intros (a & H). destruct (getM_root 1 id_order h0 t101 [] no_opts (fun _ _ => true) t101_vreach) as (m & [ND F] & E).
  - intros n. reflexivity.
  - now left.
  - now left.
  - assert (G : GetM 1 id_order h0 t101 [] no_opts = Ok (Some l101)) by run. rewrite G in E. unfold finish in E.
    cbn [o_noflat no_opts] in E. injection E as <-. apply mget_in; auto. apply F. eauto.
Qed.
Example C101_case : vreach t101 /\ (exists s v, holds 46%N t101 s v) /\
  (forall s v, holds 46%N t101 s v -> single true v = true /\ sound_key 46%N s) /\
  (forall s v s' v', holds 46%N t101 s v -> holds 46%N t101 s' v' -> ~ seg_below 46%N s' s) /\
  exists t, again t101 = Some t /\
  map (data_at t) (map runes [b "app.x"; b "app.y.z"; b "apple"; b "n"; b "app"]) =
  [Some (GInt 1); Some (GStr (b "v")); Some (GBool true); Some (GOther 5); None].
Proof.
  split; [exact t101_vreach|]. split; [|split; [|split]].
  - exists (b "n"), (GOther 5). eexists. split; [run|]. split; [run|]. split; [run|]. split; run.
  - intros s v H. apply t101_holds in H. cbn [l101 In] in H. decompose [or] H; try contradiction;
      match goal with X : _ = (s, v) |- _ => injection X as <- <- end; (split; [run|]; split; [vm_compute; intuition discriminate|]);
      (repeat (constructor; [discriminate|]); constructor).
  - intros s v s' v' H H'. apply t101_holds in H, H'. cbn [l101 In] in H, H'.
    decompose [or] H; decompose [or] H'; try contradiction;
      repeat match goal with X : _ = (_, _) |- _ => injection X as <- <- end;
      intros (a & r & X); vm_compute in X; discriminate.
  - eexists. split; run.
Qed.
