(** GetM(path) through a handle with a prefix (C178) and sizes in the notations of Go literals (C179): only statements.

    For C178 see the header of PropsCvter.v.  [relative d t fa p rest v]: the key [p]+delimiter+[rest] is exported with the value [v].
    [landing_in n ss]: where a key with the segments [ss] below the path lands, [n] being the segments of prefix and path together.
    [landed_by f d E m]: [m] is the nested map in which the keys of [E] are placed by [f].
    For C179: [literal s base t]: [s] is an integer literal of the Go specification in the base with the digits [t], [reading base t] its value. *)
From Coq Require Import String.
From Coq Require Import List NArith ZArith Bool Arith Lia Permutation.
From Verif Require Import GoStr Utf8 Node NodeWf InsertProofs MatchProofs Trie Spec Refine ApiRefine Reach Derived Derived2 Derived3
  Derived4 Dur Cvter Nested CvterProofs Export ExportIn SizeProofs SizeLit Getters GetterProofs PropsCvter.
Import ListNotations.
Open Scope nat_scope.
Open Scope list_scope.

(** ** C178: GetM(path) through a handle with a prefix *)
(** the keys below prefix and path are exported, nothing else, and each lands where [landing_in] says *)
Theorem C178_any D rf order h t path o fa k1 a1 (p := Join (hdelim h) [hprefix h; path]) :
  plain_reach D t -> vreach t -> D (hdelim h) -> filter_by o fa -> ~ root_name path ->
  hprefix h <> [] -> (hdelim h < 128)%N -> o_keep o = false -> is_scalar (hdelim h) = true -> valid_utf8 p = true ->
  t_get t k1 = Some a1 -> prefix (runes p ++ [hdelim h]) k1 ->
  (forall s v a, exports (hdelim h) t s v a -> fa s a = true -> prefix (runes p) (runes s) ->
     prefix (runes p ++ [hdelim h]) (runes s)) ->
  (forall rest v, relative (hdelim h) t fa p rest v -> is_map v = false) ->
  exists m, landed_by (landing_in (length (split_str p (enc1 (hdelim h))))) (hdelim h) (relative (hdelim h) t fa p) m /\
    GetM (S rf) order h t path o = Ok (finish order (hdelim h) o m).
Proof. exact (@getM_in_any D rf order h t path o fa k1 a1). Qed.
Print Assumptions C178_any.
(** it is the nested map relative to the path when every key has fewer segments below the path than prefix and path have together *)
Theorem C178_rel D rf order h t path o fa k1 a1 (p := Join (hdelim h) [hprefix h; path]) :
  plain_reach D t -> vreach t -> D (hdelim h) -> filter_by o fa -> ~ root_name path ->
  hprefix h <> [] -> (hdelim h < 128)%N -> o_keep o = false -> is_scalar (hdelim h) = true -> valid_utf8 p = true ->
  t_get t k1 = Some a1 -> prefix (runes p ++ [hdelim h]) k1 ->
  (forall s v a, exports (hdelim h) t s v a -> fa s a = true -> prefix (runes p) (runes s) ->
     prefix (runes p ++ [hdelim h]) (runes s)) ->
  (forall rest v, relative (hdelim h) t fa p rest v -> is_map v = false /\
     length (split_str rest (enc1 (hdelim h))) < length (split_str p (enc1 (hdelim h)))) ->
  exists m, nested_of (hdelim h) (relative (hdelim h) t fa p) m /\
    GetM (S rf) order h t path o = Ok (finish order (hdelim h) o m).
Proof. exact (@getM_in_rel D rf order h t path o fa k1 a1). Qed.
Print Assumptions C178_rel.
(** the same keys come out differently through a handle with a prefix and through one without *)
Definition h_x : hdl := withPrefix defaultHdl [s2b "x"%string].
Theorem C178_refuted : exists t outs, t_run 1 dhist newTrie = Ok (t, outs) /\
  GetM 1 id_order h_x t (s2b "y.z"%string) no_opts =
    Ok (Some [(s2b "k"%string, GInt 1); (s2b "l"%string, GMap [(s2b "m"%string, GInt 2)]); (s2b "t"%string, GInt 3)]) /\
  GetM 1 id_order h0 t (s2b "x.y.z"%string) no_opts =
    Ok (Some [([], GMap [(s2b "k"%string, GInt 1)]); (s2b "m"%string, GInt 2); (s2b "s"%string, GMap [(s2b "t"%string, GInt 3)])]).
Proof. do 2 eexists. split; [exact dt_run|]. split; run. Qed.
Print Assumptions C178_refuted.
Example C178_case_any : exists m, GetM 1 id_order h_x dt (s2b "y.z"%string) no_opts = Ok (Some m) /\
  landed_by (landing_in 3) 46%N (relative 46%N dt all_pass (s2b "x.y.z"%string)) m /\
  nget (GMap m) [s2b "k"%string] = Some (GInt 1) /\ nget (GMap m) [s2b "l"%string; s2b "m"%string] = Some (GInt 2) /\
  nget (GMap m) [s2b "t"%string] = Some (GInt 3).
Proof.
  assert (Gd : forall k a, t_get dt k = Some a -> In (k, a) (entries dt)) by (intros; now apply sget_in).
  destruct (C178_any dotD 0 id_order h_x dt (s2b "y.z"%string) no_opts all_pass (s2b "x.y.z.k"%string)
              (bare true true (GInt 1))) as (m & N & G); try reflexivity.
  - exact dt_plain.
  - exact dt_vreach.
  - exact no_filter.
  - intros [H|[H|H]]; discriminate H.
  - discriminate.
  - exists (s2b "k"%string). reflexivity.
  - intros s v a (X1 & X2 & X3 & X4 & X5) _ P. revert X4 X5 P. generalize dependent (runes s). intros k X2 X3 X4 X5 P.
    apply Gd in X3. vm_compute in X3. repeat (destruct X3 as [X3|X3]; [injection X3 as ? ?; subst|]); try destruct X3;
      try discriminate X4; try (eexists; vm_compute; reflexivity).
    destruct P as [y P]. vm_compute in P. discriminate P.
  - intros rest v (a & (X1 & X2 & X3 & X4 & X5) & _). revert X4 X5. generalize dependent (runes (Join (hdelim h_x) [hprefix h_x; s2b "y.z"%string] ++ enc1 (hdelim h_x) ++ rest)).
    intros k X2 X3 X4 X5. apply Gd in X3. vm_compute in X3. repeat (destruct X3 as [X3|X3]; [injection X3 as ? ?; subst|]); try destruct X3;
      try discriminate X4; reflexivity.
  - exists m. split; [exact G|]. split; [exact N|].
    assert (E : GetM 1 id_order h_x dt (s2b "y.z"%string) no_opts =
      Ok (Some match GetM 1 id_order h_x dt (s2b "y.z"%string) no_opts with Ok (Some m) => m | _ => [] end)) by run.
    rewrite E in G. assert (Em : m = match GetM 1 id_order h_x dt (s2b "y.z"%string) no_opts with Ok (Some m) => m | _ => [] end).
    { apply (f_equal (fun r => match r with Ok (Some z) => z | _ => [] end)) in G. cbn in G. symmetry. exact G. }
    rewrite Em. repeat split; run.
Qed.
(** prefix and path of two segments, one segment below *)
Example C178_case_rel : exists m, GetM 1 id_order hApp ot (s2b "logging"%string) no_opts = Ok (Some m) /\
  nested_of 46%N (relative 46%N ot all_pass (s2b "app.logging"%string)) m /\
  nget (GMap m) [s2b "rotate"%string] = Some (GInt 6) /\ nget (GMap m) [s2b "file"%string] = Some (GStr (s2b "x.log"%string)).
Proof.
  destruct (C178_rel dotD 0 id_order hApp ot (s2b "logging"%string) no_opts all_pass (s2b "app.logging.rotate"%string)
              (bare true true (GInt 6))) as (m & N & G); try reflexivity.
  - exact ot_plain.
  - exact ot_vreach.
  - exact no_filter.
  - intros [H|[H|H]]; discriminate H.
  - discriminate.
  - exists (s2b "rotate"%string). reflexivity.
  - intros s v a (X1 & X2 & X3 & X4 & X5) _ P. revert X4 X5 P. generalize dependent (runes s). intros k X2 X3 X4 X5 P.
    cases_of X3; try discriminate X4; try (eexists; vm_compute; reflexivity); destruct P as [y P]; vm_compute in P; discriminate P.
  - intros rest v (a & (X1 & X2 & X3 & X4 & X5) & _). apply valid_utf8_eq in X1.
    remember (runes (Join (hdelim hApp) [hprefix hApp; s2b "logging"%string] ++ enc1 (hdelim hApp) ++ rest)) as k eqn:Ek.
    revert X4 X5. clear Ek. cases_of X3; intros X4 X5; try discriminate X4; vm_compute in X1; try discriminate X1; injection X1 as X1; subst rest v; split; try reflexivity; vm_compute; lia.
  - exists m. split; [exact G|]. split; [exact N|].
    vm_compute in G. injection G as G. subst m. split; run.
Qed.

(** ** C179: sizes in the notations of Go literals *)
Open Scope N_scope.
(** strconv.ParseUint(s, 0, 64), as modelled, takes exactly the integer literals of Go *)
Theorem C179_literal s b t : literal s b t -> ParseUint s = if reading b t <=? maxu64 then (reading b t, true) else (maxu64, false).
Proof. exact (@parse_literal s b t). Qed.
Print Assumptions C179_literal.
Theorem C179_only s n : ParseUint s = (n, true) -> exists b t, literal s b t /\ n = reading b t.
Proof. exact (@parse_only s n). Qed.
Print Assumptions C179_only.
(** a literal with a suffix; a hexadecimal one that ends with e needs a blank before the suffix *)
Theorem C179_kibi PF lead s b t mid c k x y trail : literal s b t -> power c = Some k -> (mid <> [] \/ mem (last t 0) (s2b "eE"%string) = false) ->
  Forall (fun c => blank c = true) (lead ++ mid ++ trail) ->
  Forall (fun b => mem b (s2b "ib"%string) = true) x -> Forall (fun b => mem b (s2b "iB"%string) = true) y ->
  FromKibiBytes PF (lead ++ (s ++ mid ++ [c] ++ x ++ y) ++ trail) = Ok (outcome_of (reading b t) (1024 ^ k)).
Proof. exact (@kibi_literal PF lead s b t mid c k x y trail). Qed.
Print Assumptions C179_kibi.
Theorem C179_kilo PF lead s b t mid c k x y trail : literal s b t -> power c = Some k -> (mid <> [] \/ mem (last t 0) (s2b "eE"%string) = false) ->
  Forall (fun c => blank c = true) (lead ++ mid ++ trail) ->
  Forall (fun b => mem b (s2b "b"%string) = true) x -> Forall (fun b => mem b (s2b "B"%string) = true) y ->
  FromKiloBytes PF (lead ++ (s ++ mid ++ [c] ++ x ++ y) ++ trail) = Ok (outcome_of (reading b t) (1000 ^ k)).
Proof. exact (@kilo_literal PF lead s b t mid c k x y trail). Qed.
Print Assumptions C179_kilo.
(** a literal alone; one that ends with b or e is taken for something else (C33_refuted_hex) *)
Theorem C179_bare PF lead s b t trail : literal s b t -> mem (last t 0) (s2b "bBeE"%string) = false -> Forall (fun c => blank c = true) (lead ++ trail) ->
  FromKibiBytes PF (lead ++ s ++ trail) = Ok (outcome_of (reading b t) 1) /\ FromKiloBytes PF (lead ++ s ++ trail) = Ok (outcome_of (reading b t) 1).
Proof. exact (@bare_literal PF lead s b t trail). Qed.
Print Assumptions C179_bare.
(** a leading zero means octal; underscores are skipped where Go allows them *)
Example C179_case PF : literal (s2b "010"%string) 8 (s2b "10"%string) /\ reading 8 (s2b "10"%string) = 8 /\
  FromKibiBytes PF (s2b "010k"%string) = Ok 8192 /\
  literal (s2b "0x_1f"%string) 16 (s2b "1f"%string) /\ FromKiloBytes PF (s2b " 0x_1f MB"%string) = Ok 31000000 /\
  literal (s2b "1_000"%string) 10 (s2b "1_000"%string) /\ FromKibiBytes PF (s2b "1_000"%string) = Ok 1000 /\
  ~ (exists b t, literal (s2b "1__0"%string) b t) /\ ~ (exists b t, literal (s2b "089"%string) b t) /\ FromKibiBytes PF (s2b "089k"%string) = Ok 0.
Proof.
  repeat split; try run.
  - apply l_oct. repeat constructor.
  - apply (l_pre_ 120 16); [cbn; tauto|]. repeat constructor.
  - apply l_dec; [|discriminate]. apply ds_under; [reflexivity|]. repeat constructor.
  - intros (b & t & L). pose proof (parse_literal _ _ _ L) as X. assert (Z : ParseUint (s2b "1__0"%string) = (0, false)) by run. rewrite Z in X.
    destruct (reading b t <=? maxu64); [discriminate X|]. apply (f_equal fst) in X. vm_compute in X. discriminate X.
  - intros (b & t & L). pose proof (parse_literal _ _ _ L) as X. assert (Z : ParseUint (s2b "089"%string) = (0, false)) by run. rewrite Z in X.
    destruct (reading b t <=? maxu64); [discriminate X|]. apply (f_equal fst) in X. vm_compute in X. discriminate X.
Qed.
