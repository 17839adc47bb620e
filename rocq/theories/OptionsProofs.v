(** What the options of Load do to the provider and to what is loaded. *)
From Coq Require Import String.
From Coq Require Import List NArith ZArith Bool Arith Lia.
From Verif Require Import GoStr Trie Cvter Store Misc Provider Watch Options Utf8.
Import ListNotations.
Open Scope nat_scope.
Open Scope list_scope.

(** ** what is asked of the options, without the loader *)
(** the last option of a kind is the one that counts *)
Fixpoint final {A} (f : oopt -> option A) (os : list oopt) : option A :=
  match os with
  | [] => None
  | o :: r => match final f r with Some x => Some x | None => f o end
  end.
Definition of_provider (o : oopt) := match o with OProvider v => Some v | _ => None end.
Definition of_codec (o : oopt) := match o with OCodec c => Some c | _ => None end.
Definition of_pos (o : oopt) := match o with OPosition p => Some p | _ => None end.
(** the provider with the codec and the position that the options name *)
Definition settled (os : list oopt) (v : pvdr) : pvdr :=
  let v := match final of_codec os with Some c => pv_WithCodec v c | None => v end in
  match final of_pos os with Some (a :: p) => pv_WithPosition v (a :: p) | _ => v end.
(** the options for a provider that is only what it answers *)
Definition plain (p : provider) (o : oopt) : list lopt :=
  match o with
  | OProvider _ => [LProvider p]
  | OCodec c => [LCodec c]
  | OPosition _ => []
  | OStorePrefix q => [LStorePrefix q]
  | OFlat b => [LFlat b]
  | ONoWatch b => [LNoWatch b]
  end.
Definition plains (p : provider) (os : list oopt) : list lopt := flat_map (plain p) os.

Lemma fold_oopts os : forall l,
  let l' := fold_left apply_oopt os l in
  ol_pv l' = (match final of_provider os with Some v => Some v | None => ol_pv l end) /\
  ol_codec l' = (match final of_codec os with Some c => Some c | None => ol_codec l end) /\
  ol_pos l' = (match final of_pos os with Some c => c | None => ol_pos l end).
Proof.
  induction os as [|o os IH]; intros l; [now cbn|].
  cbn [fold_left]. cbv zeta in *. destruct (IH (apply_oopt l o)) as (H1 & H2 & H3).
  rewrite H1, H2, H3. clear. cbn [final].
  repeat split; destruct o; cbn [apply_oopt of_provider of_codec of_pos ol_pv ol_codec ol_pos];
    repeat match goal with |- context [final ?f os] => destruct (final f os) end; auto.
Qed.

(** the loader of Store.v that goes with a loader *)
Definition proj (p : provider) (l : oloader) : loader :=
  Ldr (ol_s l) (ol_recv l) (option_map (fun _ => p) (ol_pv l)) (ol_codec l) (ol_nowatch l).
Lemma fold_plains p os : forall l, fold_left apply_lopt (plains p os) (proj p l) = proj p (fold_left apply_oopt os l).
Proof.
  induction os as [|o os IH]; intros l; auto.
  unfold plains. cbn [flat_map fold_left]. rewrite fold_left_app. fold (plains p os).
  rewrite <- IH. f_equal. destruct o; reflexivity.
Qed.
Lemma load_by_is str json s t os : so_loading s = false ->
  Load str json s t os = load_by str json (newLoader (set_loading s true) os) t.
Proof. intros L. unfold Load. rewrite L. reflexivity. Qed.

Lemma answers_codec v p : answers v = Ok p -> pv_codec p = v_codec v.
Proof.
  unfold answers. destruct (v_src v) as [d|d|b e|o ps rec meta down|o ps bp lim down]; intros E; try (injection E as <-; reflexivity).
  match type of E with bind ?x _ = _ => destruct x as [[x1 x2]| |] end; cbn [bind] in E; try discriminate.
  injection E as <-. reflexivity.
Qed.
Lemma settled_codec os v : v_codec (settled os v) = match final of_codec os with Some c => Some c | None => v_codec v end.
Proof.
  unfold settled. destruct (final of_pos os) as [[|a p]|], (final of_codec os); try reflexivity;
    unfold pv_WithPosition, pv_WithCodec; cbn; destruct (v_src v); reflexivity.
Qed.
(** the loader of Load, put in terms of the options *)
Lemma onewLoader_is s os v : final of_provider os = Some v ->
  let l := onewLoader s os in let l0 := fold_left apply_oopt os (OL s None None None [] false) in
  ol_pv l = Some (settled os v) /\ ol_codec l = v_codec (settled os v) /\
  ol_s l = ol_s l0 /\ ol_recv l = ol_recv l0 /\ ol_nowatch l = ol_nowatch l0.
Proof.
  intros F. cbv zeta. rewrite settled_codec. unfold onewLoader.
  destruct (fold_oopts os (OL s None None None [] false)) as (H1 & H2 & H3).
  rewrite F in H1. rewrite H1. cbn [ol_codec ol_pos] in H2, H3.
  unfold settled. rewrite H2, H3.
  destruct (final of_codec os) as [c|]; cbn [is_nil];
    destruct (final of_pos os) as [[|a p]|]; cbn [is_nil ol_pv ol_codec ol_s ol_recv ol_nowatch]; repeat split; auto.
Qed.
(** Load is that of Store.v for the provider that the options settle *)
Lemma oload_is str json s t os v p :
  so_loading s = false -> final of_provider os = Some v -> answers (settled os v) = Ok p ->
  oLoad str json s t os = (do r <- Load str json s t (plains p os); Ok (r, Some (settled os v))).
Proof.
  intros L F A. unfold oLoad. rewrite L. rewrite (load_by_is _ _ _ _ _ L).
  destruct (onewLoader_is (set_loading s true) os v F) as (H1 & H2 & H3 & H4 & H5). cbv zeta in *.
  rewrite H1, H2, H3, H4, H5, A. cbn [bind].
  unfold newLoader.
  change (Ldr (set_loading s true) None None None false) with (proj p (OL (set_loading s true) None None None [] false)).
  rewrite fold_plains. cbv zeta. unfold proj at 1 2 3 4 5 6. cbn [ld_s ld_recv ld_pv ld_codec ld_nowatch].
  destruct (fold_oopts os (OL (set_loading s true) None None None [] false)) as (G1 & G2 & _). cbv zeta in *.
  rewrite G1, F, G2. cbn [option_map ol_codec]. rewrite (answers_codec _ _ A), settled_codec.
  destruct (final of_codec os); reflexivity.
Qed.
Lemma oload_none str json s t os p :
  so_loading s = false -> final of_provider os = None ->
  oLoad str json s t os = (do r <- Load str json s t (plains p os); Ok (r, None)).
Proof.
  intros L F. unfold oLoad. rewrite L. rewrite (load_by_is _ _ _ _ _ L).
  unfold newLoader, onewLoader.
  change (Ldr (set_loading s true) None None None false) with (proj p (OL (set_loading s true) None None None [] false)).
  rewrite fold_plains.
  destruct (fold_oopts os (OL (set_loading s true) None None None [] false)) as (G1 & G2 & _). cbv zeta in *.
  rewrite F in G1. cbn [ol_pv] in G1. rewrite G1. cbn [bind]. rewrite G1. cbn [bind].
  unfold proj. cbn [ld_s ld_recv ld_pv ld_codec ld_nowatch]. rewrite G1. cbn [option_map].
  destruct (ol_codec _); reflexivity.
Qed.
Lemma oload_busy str json s t os : so_loading s = true -> oLoad str json s t os = Ok (LRes s t None [] None, None).
Proof. intros L. unfold oLoad. now rewrite L. Qed.
Lemma oload_panic str json s t os v :
  so_loading s = false -> final of_provider os = Some v -> answers (settled os v) = Panic ->
  oLoad str json s t os = Panic.
Proof.
  intros L F A. unfold oLoad. rewrite L.
  destruct (onewLoader_is (set_loading s true) os v F) as (H1 & _). cbv zeta in *. rewrite H1, A. reflexivity.
Qed.

(** ** positions *)
(** the providers of the process itself: env, flags, maps, file, fs *)
Definition local (v : pvdr) : Prop :=
  match v_src v with SNames _ | SMap _ | SBytes _ _ => True | _ => False end.
Lemma local_position v q : local v -> answers (pv_WithPosition v q) = answers v.
Proof. unfold local, answers, pv_WithPosition. destruct (v_src v) eqn:E; cbn; rewrite ?E; tauto || auto. Qed.
Lemma local_codec v c : local v -> local (pv_WithCodec v c).
Proof. auto. Qed.

Lemma final_app {A} (f : oopt -> option A) os1 os2 :
  final f (os1 ++ os2) = match final f os2 with Some x => Some x | None => final f os1 end.
Proof.
  induction os1 as [|o os1 IH]; cbn [app final]; [destruct (final f os2); auto|].
  rewrite IH. destruct (final f os2); auto.
Qed.
Lemma final_skip {A} (f : oopt -> option A) os1 o os2 : f o = None -> final f (os1 ++ o :: os2) = final f (os1 ++ os2).
Proof. intros H. rewrite !final_app. cbn [final]. rewrite H. destruct (final f os2); auto. Qed.
Lemma plains_skip p os1 q os2 : plains p (os1 ++ OPosition q :: os2) = plains p (os1 ++ os2).
Proof. unfold plains. rewrite !flat_map_app. reflexivity. Qed.
Lemma settled_local os v : local v -> answers (settled os v) =
  answers match final of_codec os with Some c => pv_WithCodec v c | None => v end.
Proof.
  intros L. unfold settled. destruct (final of_pos os) as [[|a p]|]; auto.
  apply local_position. destruct (final of_codec os); auto.
Qed.
Lemma local_answers v : local v -> exists p, answers v = Ok p.
Proof. unfold local, answers. destruct (v_src v); try tauto; eauto. Qed.
Lemma settled_is_local os v : local v -> local match final of_codec os with Some c => pv_WithCodec v c | None => v end.
Proof. destruct (final of_codec os); auto. Qed.

Definition loads {A B} (r : res (A * B)) : res A := do (a, _) <- r; Ok a.
(** a position changes nothing of what these load *)
Lemma position_inert str json s t os1 q os2 :
  (forall v, final of_provider (os1 ++ os2) = Some v -> local v) ->
  loads (oLoad str json s t (os1 ++ OPosition q :: os2)) = loads (oLoad str json s t (os1 ++ os2)).
Proof.
  intros L. destruct (so_loading s) eqn:B; [now rewrite !oload_busy|].
  pose proof (final_skip of_provider os1 (OPosition q) os2 eq_refl) as F.
  pose proof (final_skip of_codec os1 (OPosition q) os2 eq_refl) as FC.
  destruct (final of_provider (os1 ++ os2)) as [v|] eqn:E.
  - specialize (L v eq_refl).
    destruct (local_answers _ (settled_is_local (os1 ++ os2) v L)) as [p Hp].
    rewrite (oload_is str json s t _ v p B F), (oload_is str json s t _ v p B E).
    + rewrite plains_skip. destruct (Load _ _ _ _ _); reflexivity.
    + now rewrite settled_local.
    + rewrite settled_local, FC by auto. auto.
  - rewrite (oload_none str json s t _ (Prov (None, None) None None None None) B F).
    rewrite (oload_none str json s t _ (Prov (None, None) None None None None) B E).
    rewrite plains_skip. destruct (Load _ _ _ _ _); reflexivity.
Qed.

(** ** consul and etcd: the position selects *)
Lemma pset_in {A} (m : list (gostring * A)) k v k' v' : In (k', v') (pset m k v) -> In (k', v') m \/ (k' = k /\ v' = v).
Proof.
  induction m as [|[a b] m IH]; cbn; [intros [H|[]]; injection H as <- <-; auto|].
  destruct (str_eqb a k); cbn; intros [H|H]; auto.
  - injection H as <- <-; auto.
  - destruct (IH H); auto.
Qed.
Lemma pset_has {A} (m : list (gostring * A)) k v : In (k, v) (pset m k v).
Proof. induction m as [|[a b] m IH]; cbn; auto. destruct (str_eqb a k); cbn; auto. Qed.
Lemma pset_keys {A} (m : list (gostring * A)) k v k' : In k' (map fst m) -> In k' (map fst (pset m k v)).
Proof.
  induction m as [|[a b] m IH]; cbn; [tauto|]. destruct (str_eqb a k) eqn:E; cbn; intros [H|H]; auto.
  left. apply str_eqb_eq in E. congruence.
Qed.
(** the map made of pairs by name and value: from where its entries are, and which names it has *)
Definition collected {X} (nm : X -> gostring) (vl : X -> pkg) (l : list X) (d : list (gostring * pkg)) : Prop :=
  (forall k x, In (k, x) d -> exists p, In p l /\ k = nm p /\ x = vl p) /\
  (forall p, In p l -> In (nm p) (map fst d)).
Lemma fold_pset {X} (nm : X -> gostring) (vl : X -> pkg) (l : list X) :
  forall (l0 : list X) m, collected nm vl l0 m -> collected nm vl (l0 ++ l) (fold_left (fun m p => pset m (nm p) (vl p)) l m).
Proof.
  induction l as [|x l IH]; intros l0 m C; cbn [fold_left]; [now rewrite app_nil_r|].
  replace (l0 ++ x :: l) with ((l0 ++ [x]) ++ l) by (now rewrite <- app_assoc).
  apply IH. destruct C as [C1 C2]. split.
  - intros k y H. apply pset_in in H. destruct H as [H|[-> ->]].
    + destruct (C1 _ _ H) as (p & P1 & P2). exists p. rewrite in_app_iff. tauto.
    + exists x. rewrite in_app_iff. cbn. tauto.
  - intros p H. apply in_app_iff in H. destruct H as [H|[<-|[]]].
    + now apply pset_keys, C2.
    + apply (in_map fst) with (x := (nm x, vl x)). apply pset_has.
Qed.
Lemma consul_collected o meta ps : collected (fun p => NormalizeKey o (kv_key p)) (fun p => Pkg (GStr (kv_val p)) [] [] (meta p)) ps (consul_ReadAll o meta ps).
Proof. unfold consul_ReadAll. apply (fold_pset _ _ ps [] []). split; cbn; tauto. Qed.
Lemma etcd_collected o (ps : list (gostring * gostring)) : collected (fun p => NormalizeKey o (fst p)) (fun p => Pkg (GStr (snd p)) [] [] GNil) ps (etcd_Read o ps).
Proof. unfold etcd_Read. apply (fold_pset (fun p => NormalizeKey o (fst p)) (fun p => Pkg (GStr (snd p)) [] [] GNil) ps [] []). split; cbn; tauto. Qed.

Lemma collected_weaken {X} nm vl (l : list X) P d : collected nm vl (filter P l) d ->
  (forall k x, In (k, x) d -> exists p, In p l /\ P p = true /\ k = nm p /\ x = vl p) /\
  (forall p, In p l -> P p = true -> In (nm p) (map fst d)).
Proof.
  intros [C1 C2]. split.
  - intros k x H. destruct (C1 _ _ H) as (p & H1 & H2). apply filter_In in H1. exists p. tauto.
  - intros p H1 H2. apply C2, filter_In. tauto.
Qed.
(** a position for consul, read recursively: what Load gets is exactly the pairs below it *)
Lemma consul_position str json s t os v a q o ps meta :
  so_loading s = false -> final of_provider os = Some v -> v_src v = SConsul o ps true meta None ->
  final of_pos os = Some (a :: q) ->
  exists p d, oLoad str json s t os = (do r <- Load str json s t (plains p os); Ok (r, Some (settled os v))) /\
    pv_read p = (Some d, None) /\
    (forall k x, In (k, x) d -> exists pr, In pr ps /\ has_prefix (a :: q) (kv_key pr) = true /\
                                k = NormalizeKey o (kv_key pr) /\ x = Pkg (GStr (kv_val pr)) [] [] (meta pr)) /\
    (forall pr, In pr ps -> has_prefix (a :: q) (kv_key pr) = true -> In (NormalizeKey o (kv_key pr)) (map fst d)).
Proof.
  intros L F E P.
  assert (A : exists p, answers (settled os v) = Ok p /\ pv_read p = (Some (consul_ReadAll o meta (consul_List ps (a :: q))), None)).
  { unfold settled. rewrite P. unfold answers, pv_WithPosition, pv_WithCodec.
    destruct (final of_codec os); cbn [v_src]; rewrite E; cbn [v_src v_prefix bind]; eexists; split; reflexivity. }
  destruct A as (p & A & R). exists p, (consul_ReadAll o meta (consul_List ps (a :: q))).
  split; [now apply oload_is|]. split; [exact R|].
  apply (collected_weaken _ _ _ _ _ (consul_collected o meta (consul_List ps (a :: q)))).
Qed.
(** without a position it is the pairs below the one the provider has: all of them for none *)
Lemma consul_no_position str json s t os v o ps meta :
  so_loading s = false -> final of_provider os = Some v -> v_src v = SConsul o ps true meta None ->
  final of_pos os = None ->
  exists p d, oLoad str json s t os = (do r <- Load str json s t (plains p os); Ok (r, Some (settled os v))) /\
    pv_read p = (Some d, None) /\
    (forall k x, In (k, x) d -> exists pr, In pr ps /\ has_prefix (v_prefix v) (kv_key pr) = true /\
                                k = NormalizeKey o (kv_key pr) /\ x = Pkg (GStr (kv_val pr)) [] [] (meta pr)) /\
    (forall pr, In pr ps -> has_prefix (v_prefix v) (kv_key pr) = true -> In (NormalizeKey o (kv_key pr)) (map fst d)).
Proof.
  intros L F E P.
  assert (A : exists p, answers (settled os v) = Ok p /\ pv_read p = (Some (consul_ReadAll o meta (consul_List ps (v_prefix v))), None)).
  { unfold settled. rewrite P. unfold answers, pv_WithCodec.
    destruct (final of_codec os); cbn [v_src]; rewrite E; cbn [v_src v_prefix bind]; eexists; split; reflexivity. }
  destruct A as (p & A & R). exists p, (consul_ReadAll o meta (consul_List ps (v_prefix v))).
  split; [now apply oload_is|]. split; [exact R|].
  apply (collected_weaken _ _ _ _ _ (consul_collected o meta (consul_List ps (v_prefix v)))).
Qed.
(** a position for etcd with WithStorePrefix and no limit *)
Lemma etcd_position str json s t os v a q o ps :
  so_loading s = false -> final of_provider os = Some v -> v_src v = SEtcd o ps true None None ->
  final of_pos os = Some (a :: q) ->
  exists p d, oLoad str json s t os = (do r <- Load str json s t (plains p os); Ok (r, Some (settled os v))) /\
    pv_read p = (Some d, None) /\
    (forall k x, In (k, x) d -> exists pr, In pr ps /\ has_prefix (a :: q) (fst pr) = true /\
                                k = NormalizeKey o (fst pr) /\ x = Pkg (GStr (snd pr)) [] [] GNil) /\
    (forall pr, In pr ps -> has_prefix (a :: q) (fst pr) = true -> In (NormalizeKey o (fst pr)) (map fst d)).
Proof.
  intros L F E P.
  assert (A : exists p, answers (settled os v) = Ok p /\ pv_read p = (Some (etcd_Read o (filter (fun x => has_prefix (a :: q) (fst x)) ps)), None)).
  { unfold settled. rewrite P. unfold answers, pv_WithPosition, pv_WithCodec.
    destruct (final of_codec os); cbn [v_src]; rewrite E; cbn [v_src v_store]; eexists; split; reflexivity. }
  destruct A as (p & A & R). eexists p, _.
  split; [now apply oload_is|]. split; [exact R|].
  apply (collected_weaken (fun p => NormalizeKey o (fst p)) (fun p => Pkg (GStr (snd p)) [] [] GNil) _ _ _ (etcd_collected o _)).
Qed.
(** consul, not recursive: a position without a key there is a panic *)
Lemma consul_missing str json s t os v a q o ps meta :
  so_loading s = false -> final of_provider os = Some v -> v_src v = SConsul o ps false meta None ->
  final of_pos os = Some (a :: q) -> (forall pr, In pr ps -> kv_key pr <> a :: q) ->
  oLoad str json s t os = Panic.
Proof.
  intros L F E P N. apply (oload_panic _ _ _ _ _ v L F).
  assert (G : consul_Get ps (a :: q) = None).
  { unfold consul_Get. destruct (find _ ps) as [x|] eqn:D; auto. apply find_some in D. destruct D as [D1 D2].
    apply str_eqb_eq in D2. now elim (N x). }
  unfold settled. rewrite P. unfold answers, pv_WithPosition, pv_WithCodec.
  destruct (final of_codec os); cbn [v_src]; rewrite E; cbn [v_src v_prefix]; rewrite G; reflexivity.
Qed.
(** one key of consul *)
Lemma consul_one v o ps meta p : v_src v = SConsul o ps false meta None -> NoDup (map kv_key ps) -> In p ps -> kv_key p = v_prefix v ->
  exists a, answers v = Ok a /\ pv_read a = (Some [(NormalizeKey o (v_prefix v), Pkg (GStr (kv_val p)) [] [] (meta p))], None).
Proof.
  intros E N I K. assert (G : consul_Get ps (v_prefix v) = Some p).
  { rewrite <- K. clear -N I. induction ps as [|x ps IH]; [easy|]. inversion N as [|? ? N1 N2]; subst. unfold consul_Get in *. cbn [find].
    destruct I as [->|I]; [now rewrite str_eqb_refl|]. destruct (str_eqb (kv_key x) (kv_key p)) eqn:X; [|auto].
    apply str_eqb_eq in X. elim N1. rewrite X. now apply in_map. }
  unfold answers. rewrite E, G. cbn. rewrite K. eexists. split; reflexivity.
Qed.
Lemma consul_none v o ps meta : v_src v = SConsul o ps false meta None -> (forall p, In p ps -> kv_key p <> v_prefix v) -> answers v = Panic.
Proof.
  intros E N. unfold answers. rewrite E. unfold consul_Get. destruct (find _ ps) as [x|] eqn:D; [|reflexivity].
  apply find_some in D. destruct D as [D1 D2]. apply str_eqb_eq in D2. now elim (N x).
Qed.

(** ** settings that stay *)
Lemma settled_again os os' v :
  final of_codec os <> None -> (exists a p, final of_pos os = Some (a :: p)) ->
  settled os (settled os' v) = settled os v.
Proof.
  intros C (a & p & P). unfold settled. rewrite P. destruct (final of_codec os) as [c|]; [|congruence].
  destruct (final of_codec os') as [c'|]; destruct (final of_pos os') as [[|a' p']|];
    unfold pv_WithPosition, pv_WithCodec; destruct v as [x1 x2 x3 [] x5]; reflexivity.
Qed.
Lemma round_trip v p : ~ (exists d, v_src v = SNames d) -> pv_GetPosition (pv_WithPosition v p) = p.
Proof.
  intros N. unfold pv_GetPosition, pv_WithPosition. destruct (v_src v) eqn:E; cbn; rewrite ?E; auto. elim N; eauto.
Qed.
Lemma round_trip_names v p d : v_src v = SNames d -> pv_GetPosition (pv_WithPosition v p) = pv_GetPosition v.
Proof. destruct v as [x1 x2 x3 x4 x5]. cbn. intros ->. reflexivity. Qed.
Lemma oload_left str json s t os r pv : so_loading s = false -> oLoad str json s t os = Ok (r, pv) ->
  pv = option_map (settled os) (final of_provider os).
Proof.
  intros L E. destruct (final of_provider os) as [v|] eqn:F.
  - destruct (answers (settled os v)) as [p| |] eqn:A.
    + rewrite (oload_is _ _ _ _ _ _ _ L F A) in E. destruct (Load _ _ _ _ _); cbn [bind] in E; try discriminate.
      injection E as <- <-. reflexivity.
    + rewrite (oload_panic _ _ _ _ _ _ L F A) in E. discriminate.
    + unfold oLoad in E. rewrite L in E.
      destruct (onewLoader_is (set_loading s true) os v F) as (H1 & _). cbv zeta in *. rewrite H1, A in E. discriminate.
  - rewrite (oload_none _ _ _ _ _ (Prov (None, None) None None None None) L F) in E.
    destruct (Load _ _ _ _ _); cbn [bind] in E; try discriminate. injection E as <- <-. reflexivity.
Qed.

(** ** sources that cannot be read, and files *)
From Verif Require Import Reach StoreProofs LoadProofs.
Lemma plains_provider p os : last_opt opt_provider (plains p os) = option_map (fun _ => p) (final of_provider os).
Proof.
  assert (A : forall l1 l2, last_opt opt_provider (l1 ++ l2) = match last_opt opt_provider l2 with Some x => Some x | None => last_opt opt_provider l1 end).
  { induction l1 as [|o l1 IH]; intros l2; cbn; [destruct (last_opt opt_provider l2); auto|]. rewrite IH. destruct (last_opt opt_provider l2); auto. }
  induction os as [|o os IH]; [reflexivity|]. cbn [plains flat_map]. unfold plains in IH. rewrite A, IH. cbn [final]. destruct (final of_provider os); [reflexivity|]. destruct o; reflexivity.
Qed.
Lemma plains_codec p os : last_opt opt_codec (plains p os) = final of_codec os.
Proof.
  assert (A : forall l1 l2, last_opt opt_codec (l1 ++ l2) = match last_opt opt_codec l2 with Some x => Some x | None => last_opt opt_codec l1 end).
  { induction l1 as [|o l1 IH]; intros l2; cbn; [destruct (last_opt opt_codec l2); auto|]. rewrite IH. destruct (last_opt opt_codec l2); auto. }
  induction os as [|o os IH]; [reflexivity|]. cbn [plains flat_map]. unfold plains in IH. rewrite A, IH. cbn [final]. destruct (final of_codec os); [reflexivity|]. destruct o; reflexivity.
Qed.
(** the source reports the error *)
Definition down (v : pvdr) (e : lerr) : Prop :=
  match v_src v with
  | SBytes _ x | SConsul _ _ _ _ x | SEtcd _ _ _ _ x => x = Some e
  | _ => False
  end.
Lemma settled_src os v : v_src (settled os v) = v_src v.
Proof. unfold settled. destruct (final of_pos os) as [[|a p]|]; destruct (final of_codec os); unfold pv_WithPosition, pv_WithCodec; cbn; try destruct (v_src v) eqn:E; cbn; congruence. Qed.
Lemma oload_down str json s t os v n : so_loading s = false -> final of_provider os = Some v -> down v (EOther n) ->
  exists r, oLoad str json s t os = Ok (r, Some (settled os v)) /\ lr_err r = Some (EOther n) /\ lr_ev r = [] /\ lr_t r = t /\ lr_wr r = None /\
    so_loading (lr_s r) = false.
Proof.
  intros L F D. assert (A : exists p, answers (settled os v) = Ok p /\
    ((exists d, pv_read p = (d, Some (EOther n))) \/ (pv_read p = (None, Some ENotImpl) /\ exists b, pv_once p = Some (b, Some (EOther n))))).
  { unfold answers. rewrite settled_src. unfold down in D. destruct (v_src v); try easy; subst; cbn [bind]; eexists; (split; [reflexivity|]); cbn; eauto. }
  destruct A as (p & A & H). pose proof (loader_options json s (plains p os)) as (LP & _). cbv zeta in LP. rewrite plains_provider, F in LP. cbn in LP.
  destruct H as [[d H]|[H [b O]]].
  - destruct (load_error str json s t (plains p os) p d n L LP H) as (r & E & Q). exists r. rewrite (oload_is str json s t os v p L F A), E. tauto.
  - destruct (load_once_error str json s t (plains p os) p b (EOther n) L LP H O) as (r & E & Q). exists r. rewrite (oload_is str json s t os v p L F A), E. tauto.
Qed.
(** the codec that decodes: that of the options, that of the provider, or json *)
Definition decodes (json : codec) (os : list oopt) (v : pvdr) : codec :=
  match final of_codec os with Some c => c | None => match v_codec v with Some c => c | None => json end end.
Lemma oload_file str (json : codec) s t os v b m : reached t -> so_loading s = false -> final of_provider os = Some v -> v_src v = SBytes b None ->
  decodes json os v b = (Some m, None) ->
  exists p r, oLoad str json s t os = Ok (r, Some (settled os v)) /\ lr_err r = None /\
    holds_after (lplaces str (ld_s (the_loader s (plains p os))) m) t (lr_t r).
Proof.
  intros R L F S D. pose (p := Prov (None, Some ENotImpl) (Some (b, None)) None (v_codec (settled os v)) (v_watch (settled os v))).
  assert (A : answers (settled os v) = Ok p) by (unfold answers; now rewrite settled_src, S).
  pose proof (loader_options json s (plains p os)) as (LP & LC & _). cbv zeta in LP, LC. rewrite plains_provider, F in LP, LC. cbn in LP. rewrite plains_codec in LC.
  destruct (load_bytes str json s t (plains p os) p b m R L LP eq_refl eq_refl) as (r & E & Q1 & _ & _ & _ & Q2 & _).
  { rewrite LC. rewrite <- D. unfold decodes. cbn. rewrite settled_codec. destruct (final of_codec os); reflexivity. }
  exists p, r. rewrite (oload_is str json s t os v p L F A), E. auto.
Qed.
