(** The properties of stores kept in files (C107, C108): only statements.

    A [disk] maps file names to contents.  [holds d t s v]: the tree [t] has the leaf [s] with the value [v] and
    [s] does not end with the delimiter; [modified_in d t s v]: the same, and it is marked modified.
    [writable flat d E]: the keys have no blanks and no empty segments, none is above another, and loading stores
    the values as they are.  [loads_from w f d flat dec json st os]: [Load] of the store [st] with the options
    [os] reads the file [f] through a file provider (or an fs provider) and decodes it with [dec].
    [over E t0 t']: [t'] is [t0] with exactly the pairs of [E] written over it.  [filed w f d flat dec E]: every
    such [Load] succeeds and writes exactly the pairs of [E].  [keeps flat enc dec]: the codec keeps nested maps. *)
From Coq Require Import String.
From Coq Require Import List NArith ZArith Bool Arith Lia Permutation.
From Verif Require Import GoStr Utf8 Node NodeWf InsertProofs MatchProofs Trie Spec Refine ApiRefine Reach Derived Derived2 Derived3
  Derived4 Climb Cvter Nested CvterProofs Export Store StoreProofs MergeProofs LoadProofs Follow Save SaveProofs Files FileProofs.
Import ListNotations.
Open Scope nat_scope.
Open Scope list_scope.

Ltac run := vm_compute; reflexivity.
Definition b (s : string) : gostring := s2b s.
Definition h0 : hdl := defaultHdl.
Definition id_order : gmap -> gmap := fun m => m.
Definition st0 : store := Sto h0 false [] [] [] [] None true false.
Definition str0 : gval -> gostring := fun _ => [].
Definition json0 : gostring -> option gmap * option lerr := fun _ => (None, None).
Definition fp0 : fpv := FPv (b "app.conf") true None.
Definition ab : gmap := [(b "a", GInt 1); (b "b", GMap [(b "c", GStr (b "x"))])].
Definition w0 : disk := fun f => if str_eqb f (b "app.conf") then (match enc0 ab with inl x => Some x | _ => None end) else None.
Definition load_opts (w : disk) : list lopt := [LProvider (file_provider w fp0); LCodec dec0].

(** ** C107: Load a file, change a key, Save, load the file again: is it the store? *)
Theorem C107_refuted : exists r ld t' id old e w' r',
  Load str0 json0 st0 newTrie (load_opts w0) = Ok r /\ lr_wr r = Some ld /\
  data_at (lr_t r) (runes (b "b.c")) = Some (GStr (b "x")) /\
  st_Set 1 (lr_s r) (lr_t r) (b "a") (GInt 3) = Ok (t', id, old, e) /\
  file_Save 1 id_order ld enc0 fp0 w0 t' = Ok (w', None) /\
  Load str0 json0 st0 newTrie (load_opts w') = Ok r' /\ lr_err r' = None /\
  data_at (lr_t r') (runes (b "a")) = Some (GInt 3) /\ data_at (lr_t r') (runes (b "b.c")) = None.
Proof.
  do 8 eexists. split; [run|]. split; [run|]. split; [run|]. split; [run|]. split; [run|]. split; [run|].
  split; [run|]. split; run.
Qed.
Print Assumptions C107_refuted.

(** ** C108: what files hold *)
(** after SaveAs: the whole store *)
Theorem C108_saveas rf order h t flat enc dec p w :
  vreach t -> hprefix h = [] -> (hdelim h < 128)%N -> (forall m, Permutation m (order m)) ->
  writable flat (hdelim h) (holds (hdelim h) t) -> (exists s v, holds (hdelim h) t s v) -> keeps flat enc dec ->
  fp_write p = true ->
  exists w', file_SaveAs rf order h enc p w t = Ok (w', None) /\
    (forall g, g <> fp_file p -> w' g = w g) /\ filed w' (fp_file p) (hdelim h) flat dec (holds (hdelim h) t).
Proof. exact (@saveas_file rf order h t flat enc dec p w). Qed.
Print Assumptions C108_saveas.
(** after Save: exactly the modified keys; the file is as before if there are none *)
Theorem C108_save rf order ld t flat enc dec p w c pv :
  let h := so_h (ld_s ld) in
  vreach t -> hprefix h = [] -> (hdelim h < 128)%N -> (forall m, Permutation m (order m)) ->
  ld_codec ld = Some c -> ld_pv ld = Some pv ->
  writable flat (hdelim h) (modified_in (hdelim h) t) -> keeps flat enc dec -> fp_write p = true ->
  ((forall s v, ~ modified_in (hdelim h) t s v) -> file_Save rf order ld enc p w t = Ok (w, None)) /\
  ((exists s v, modified_in (hdelim h) t s v) ->
   exists w', file_Save rf order ld enc p w t = Ok (w', None) /\
     (forall g, g <> fp_file p -> w' g = w g) /\ filed w' (fp_file p) (hdelim h) flat dec (modified_in (hdelim h) t)).
Proof. exact (@save_file rf order ld t flat enc dec p w c pv). Qed.
Print Assumptions C108_save.
Theorem C108_disabled rf order ld h t enc p w : fp_write p = false ->
  (forall r, file_Save rf order ld enc p w t = Ok r -> fst r = w) /\
  (forall r, file_SaveAs rf order h enc p w t = Ok r -> fst r = w).
Proof. exact (@save_disabled rf order ld h t enc p w). Qed.
Print Assumptions C108_disabled.
Theorem C108_refused rf order ld t flat enc dec p w c pv :
  let h := so_h (ld_s ld) in
  vreach t -> hprefix h = [] -> (hdelim h < 128)%N -> (forall m, Permutation m (order m)) ->
  ld_codec ld = Some c -> ld_pv ld = Some pv ->
  writable flat (hdelim h) (modified_in (hdelim h) t) -> keeps flat enc dec -> fp_write p = false ->
  (exists s v, modified_in (hdelim h) t s v) -> file_Save rf order ld enc p w t = Ok (w, Some EWriteOff).
Proof. exact (@save_refused rf order ld t flat enc dec p w c pv). Qed.
Print Assumptions C108_refused.
Theorem C108_saveas_refused rf order h t flat enc dec p w :
  vreach t -> hprefix h = [] -> (hdelim h < 128)%N -> (forall m, Permutation m (order m)) ->
  writable flat (hdelim h) (holds (hdelim h) t) -> keeps flat enc dec -> fp_write p = false ->
  (exists s v, holds (hdelim h) t s v) -> file_SaveAs rf order h enc p w t = Ok (w, Some EWriteOff).
Proof. exact (@saveas_refused rf order h t flat enc dec p w). Qed.
Print Assumptions C108_saveas_refused.
Theorem C108_unencodable rf order ld t flat enc e p w c pv :
  let h := so_h (ld_s ld) in
  vreach t -> hprefix h = [] -> (hdelim h < 128)%N -> (forall m, Permutation m (order m)) ->
  ld_codec ld = Some c -> ld_pv ld = Some pv -> (forall m, enc m = inr e) ->
  (writable flat (hdelim h) (modified_in (hdelim h) t) -> (exists s v, modified_in (hdelim h) t s v) ->
   file_Save rf order ld enc p w t = Ok (w, Some e)) /\
  (writable flat (hdelim h) (holds (hdelim h) t) -> (exists s v, holds (hdelim h) t s v) ->
   file_SaveAs rf order h enc p w t = Ok (w, Some e)).
Proof. exact (@save_unencodable rf order ld t flat enc e p w c pv). Qed.
Print Assumptions C108_unencodable.
Theorem C108_missing w f d flat dec str json st t os :
  w f = None -> loads_from w f d flat dec json st os ->
  exists r, Load str json st t os = Ok r /\ lr_err r = Some ENoFile /\ lr_t r = t /\ lr_wr r = None.
Proof. exact (@load_missing w f d flat dec str json st t os). Qed.
Print Assumptions C108_missing.
(** a store that was loaded and changed *)
Definition ld1 : loader := Ldr st0 None (Some (file_provider w0 fp0)) (Some dec0) false.
Definition hist1 : list (hdl * op) := [(h0, OSet (b "b.c") (GStr (b "x"))); (h0, OSetWith (b "a") (GInt 3) (fun _ => [NSetModified true]))].
Definition t1 : tr := match t_run 1 hist1 newTrie with Ok (t, _) => t | _ => newTrie end.
Lemma t1_vreach : vreach t1.
Proof.
  exists 1, hist1. eexists. split; [|vm_compute; reflexivity].
  repeat constructor.
Qed.
Definition l1 : list (gostring * gval) := [(b "b.c", GStr (b "x")); (b "a", GInt 3)].
Lemma t1_holds s v : holds 46%N t1 s v -> In (s, v) l1.
Proof.
  intros (a & H). destruct (getM_root 1 id_order h0 t1 [] no_opts (fun _ _ => true) t1_vreach) as (m & [ND F] & E).
  - intros n. reflexivity.
  - now left.
  - now left.
  - assert (G : GetM 1 id_order h0 t1 [] no_opts = Ok (Some l1)) by run. rewrite G in E. unfold finish in E.
    cbn [o_noflat no_opts] in E. injection E as <-. apply mget_in; auto. apply F. eauto.
Qed.
Example C108_case : vreach t1 /\ (forall m : gmap, Permutation m (id_order m)) /\
  writable true 46%N (holds 46%N t1) /\ (exists s v, holds 46%N t1 s v) /\ keeps true enc0 dec0 /\ fp_write fp0 = true /\
  loads_from w0 (fp_file fp0) 46%N true dec0 json0 st0 (load_opts w0) /\
  exists w r, file_SaveAs 1 id_order h0 enc0 fp0 w0 t1 = Ok (w, None) /\ Load str0 json0 st0 newTrie (load_opts w) = Ok r /\
    map (data_at (lr_t r)) (map runes [b "a"; b "b.c"; b "b"]) = [Some (GInt 3); Some (GStr (b "x")); None].
Proof.
  split; [exact t1_vreach|]. split; [intros m; apply Permutation_refl|]. split; [split|].
  - intros s v H. apply t1_holds in H. cbn [l1 In] in H. decompose [or] H; try contradiction;
      match goal with X : _ = (s, v) |- _ => injection X as <- <- end; (split; [run|]; split; [vm_compute; intuition discriminate|]);
      (repeat (constructor; [discriminate|]); constructor).
  - intros s v s' v' H H'. apply t1_holds in H, H'. cbn [l1 In] in H, H'.
    decompose [or] H; decompose [or] H'; try contradiction;
      repeat match goal with X : _ = (_, _) |- _ => injection X as <- <- end;
      intros (a & r & X); vm_compute in X; discriminate.
  - split; [|split; [exact codec_exists|split; [reflexivity|split]]].
    + exists (b "a"), (GInt 3). eexists. split; [run|]. split; [run|]. split; [run|]. split; run.
    + constructor; try reflexivity; [|eexists; split; [reflexivity|left; exists fp0; split; reflexivity]].
      repeat constructor.
    + do 2 eexists. split; [run|]. split; run.
Qed.
Example C108_case_save : let d := 46%N in
  vreach t1 /\ ld_codec ld1 = Some dec0 /\ ld_pv ld1 = Some (file_provider w0 fp0) /\
  writable true d (modified_in d t1) /\ modified_in d t1 (b "a") (GInt 3) /\ ~ modified_in d t1 (b "b.c") (GStr (b "x")) /\
  exists w r, file_Save 1 id_order ld1 enc0 fp0 w0 t1 = Ok (w, None) /\ Load str0 json0 st0 newTrie (load_opts w) = Ok r /\
    map (data_at (lr_t r)) (map runes [b "a"; b "b.c"]) = [Some (GInt 3); None].
Proof.
  cbv zeta. split; [exact t1_vreach|]. split; [reflexivity|]. split; [reflexivity|].
  assert (M : forall s v, modified_in 46%N t1 s v -> holds 46%N t1 s v) by (intros s v (a & H & _); now exists a).
  destruct C108_case as (_ & _ & [W1 W2] & _). split; [split; eauto|].
  split; [|split].
  - eexists. split; [split; [run|split; [run|split; [run|split; run]]]|run].
  - intros (a & (_ & _ & G & _) & H). vm_compute in G. injection G as <-. discriminate H.
  - do 2 eexists. split; [run|]. split; run.
Qed.
