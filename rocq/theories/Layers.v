(** Several Loads one after the other: layers of configuration. *)
From Coq Require Import List NArith ZArith Bool Arith Lia.
From Verif Require Import GoStr Utf8 Node Trie Spec Refine ApiRefine Reach Derived Derived2 Cvter Nested Store StoreProofs MergeProofs LoadProofs Follow.
Import ListNotations.
Open Scope nat_scope.

(** the flag for flattening that a Load leaves: options behind a prefix are for the view *)
Fixpoint flat_left (os : list lopt) (f : bool) : bool :=
  match os with
  | [] => f
  | LFlat b :: r => flat_left r b
  | LStorePrefix _ :: _ => f
  | _ :: r => flat_left r f
  end.
Definition left_by (l : loader) : store := match ld_recv l with Some r => r | None => ld_s l end.
Lemma recv_stays os : forall l r, ld_recv l = Some r -> ld_recv (fold_left apply_lopt os l) = Some r.
Proof. induction os as [|o os IH]; intros l r H; cbn [fold_left]; auto. apply IH. destruct o; cbn; auto. now rewrite H. Qed.
Lemma left_spec os : forall l, ld_recv l = None ->
  so_flat (left_by (fold_left apply_lopt os l)) = flat_left os (so_flat (ld_s l)) /\
  so_h (left_by (fold_left apply_lopt os l)) = so_h (ld_s l).
Proof.
  induction os as [|o os IH]; intros l H; cbn [fold_left flat_left]; [unfold left_by; now rewrite H|].
  destruct o as [p|c|p|b|b];
    [exact (IH (apply_lopt l (LProvider p)) H)|exact (IH (apply_lopt l (LCodec c)) H)| |
     exact (IH (apply_lopt l (LFlat b)) H)|exact (IH (apply_lopt l (LNoWatch b)) H)].
  unfold left_by. erewrite recv_stays by reflexivity. cbn. rewrite H. auto.
Qed.
Lemma startWatch_keeps s pv : so_flat (startWatch s pv) = so_flat s /\ so_h (startWatch s pv) = so_h s.
Proof. unfold startWatch. destruct (so_watch s); auto. destruct pv as [p|]; auto. destruct (pv_watch p); auto. Qed.
Theorem load_left str json s t os r : so_loading s = false -> Load str json s t os = Ok r ->
  so_flat (lr_s r) = flat_left os (so_flat s) /\ so_h (lr_s r) = so_h s.
Proof.
  intros HL. unfold Load. rewrite HL. fold (the_loader s os).
  assert (LB : so_flat (left_by (the_loader s os)) = flat_left os (so_flat s) /\ so_h (left_by (the_loader s os)) = so_h s).
  { exact (left_spec os (Ldr (set_loading s true) None None None false) eq_refl). }
  unfold left_by in LB. generalize dependent (the_loader s os). intros L LB. cbv zeta.
  destruct (tryLoad _ _ _ _ _) as [[[[[t1 e1] data] bin] err]| |]; cbn [bind]; try discriminate.
  destruct err. { intros E; injection E as <-. cbn [lr_s set_loading so_flat so_h]. exact LB. }
  destruct (match data with Some d => _ | None => _ end) as [[t2 e2]| |]; cbn [bind]; try discriminate.
  destruct (match bin with Some d => _ | None => _ end) as [[t3 e3]| |]; cbn [bind]; try discriminate.
  intros E. injection E as <-. cbn [lr_s set_loading so_flat so_h].
  destruct (ld_recv L) as [rc|]; [exact LB|].
  match goal with |- context [if ?b then _ else _] => destruct b end; [|exact LB].
  destruct (startWatch_keeps (ld_s L) (ld_pv L)) as [-> ->]. exact LB.
Qed.

(** what the source of a Load gives: a map, or nothing because it fails *)
Definition dec_of (json : gostring -> option gmap * option lerr) (os : list lopt) (pv : provider) : gostring -> option gmap * option lerr :=
  match last_opt opt_codec os with Some c => c | None => match pv_codec pv with Some c => c | None => json end end.
Inductive gives (json : gostring -> option gmap * option lerr) (os : list lopt) : option gmap -> Prop :=
| G_read pv d : last_opt opt_provider os = Some pv -> pv_read pv = (Some d, None) -> gives json os (Some (values d))
| G_bytes pv b m : last_opt opt_provider os = Some pv -> pv_read pv = (None, Some ENotImpl) -> pv_once pv = Some (b, None) ->
    dec_of json os pv b = (Some m, None) -> gives json os (Some m)
| G_fails pv d n : last_opt opt_provider os = Some pv -> pv_read pv = (d, Some (EOther n)) -> gives json os None
| G_no_bytes pv b e : last_opt opt_provider os = Some pv -> pv_read pv = (None, Some ENotImpl) -> pv_once pv = Some (b, Some e) -> gives json os None
| G_no_text pv b m e : last_opt opt_provider os = Some pv -> pv_read pv = (None, Some ENotImpl) -> pv_once pv = Some (b, None) ->
    dec_of json os pv b = (m, Some e) -> gives json os None.
(** where its values go *)
Definition layer (str : gval -> gostring) (h : hdl) (flat : bool) (os : list lopt) (m : option gmap) : list (skey * gval) :=
  match m with
  | Some m => map (placed (hdelim h) (match last_opt opt_prefix os with Some p => Join (hdelim h) [p] | None => hprefix h end))
                  (leaves str (pick (last_opt opt_flat os) flat) (hdelim h) m)
  | None => []
  end.
Lemma read_reached (str : gval -> gostring) (json : gostring -> option gmap * option lerr) s t os pv d r :
  reached t -> so_loading s = false -> ld_pv (the_loader s os) = Some pv -> pv_read pv = (Some d, None) ->
  Load str json s t os = Ok r -> reached (lr_t r).
Proof.
  intros R HL HP HR. unfold Load. rewrite HL. fold (the_loader s os). unfold tryLoad. rewrite HP, HR. cbn [bind].
  destruct (newLoader_ok (set_loading s true) os eq_refl) as [O1 O2]. fold (the_loader s os) in O1, O2.
  destruct (loadDedicated_spec str (ld_s (the_loader s os)) true d t R O1) as (t' & E & R' & _).
  rewrite E. cbn [bind]. intros X. injection X as <-. exact R'.
Qed.
Lemma bytes_reached (str : gval -> gostring) (json : gostring -> option gmap * option lerr) s t os pv b m r :
  reached t -> so_loading s = false -> ld_pv (the_loader s os) = Some pv -> pv_read pv = (None, Some ENotImpl) ->
  pv_once pv = Some (b, None) -> decoder json (the_loader s os) b = (Some m, None) ->
  Load str json s t os = Ok r -> reached (lr_t r).
Proof.
  intros R HL HP HR HO HD. unfold Load. rewrite HL. fold (the_loader s os). unfold tryLoad. rewrite HP, HR, HO. cbn [bind].
  destruct (newLoader_ok (set_loading s true) os eq_refl) as [O1 O2]. fold (the_loader s os) in O1, O2.
  destruct (loadMap_spec str (ld_s (the_loader s os)) true m t R O1) as (t' & E & R' & _).
  unfold decoder in HD. destruct (ld_codec (the_loader s os)) as [c|]; rewrite HD; cbn [bind]; rewrite E; cbn [bind];
    (intros X; injection X as <-; exact R').
Qed.
Lemma lplaces_layer (str : gval -> gostring) (json : gostring -> option gmap * option lerr) s os m : lplaces str (ld_s (the_loader s os)) m = layer str (so_h s) (so_flat s) os (Some m).
Proof.
  destruct (loader_options json s os) as (_ & _ & H3 & H4 & H5 & _). unfold lplaces, layer. now rewrite H3, H4, H5.
Qed.
Lemma load_layer str json s t os m : reached t -> so_loading s = false -> gives json os m ->
  exists r, Load str json s t os = Ok r /\ reached (lr_t r) /\ so_loading (lr_s r) = false /\ (lr_err r = None <-> m <> None) /\
    (forall k, data_at (lr_t r) k = match assoc_last (layer str (so_h s) (so_flat s) os m) k None with Some v => Some v | None => data_at t k end) /\
    (forall k, mod_at (lr_t r) k = mod_at t k) /\ (forall k, meta_at (lr_t r) k = meta_at t k) /\ lr_ev r = [].
Proof.
  intros R HL G. destruct (loader_options json s os) as (H1 & H2 & _).
  destruct G as [pv d P E|pv b m P E O C|pv d n P E|pv b e P E O|pv b m e P E O C]; rewrite P in H1.
    - destruct (load_read str json s t os pv d R HL H1 E) as (r & L & E1 & E2 & E3 & _ & A & M & MT). exists r. split; [exact L|].
      split; [exact (read_reached str json s t os pv d r R HL H1 E L)|]. split; [exact E3|]. split; [split; [discriminate|auto]|]. split; [|auto]. intros k. rewrite <- (lplaces_layer str json). now apply holds_data.
    - assert (C' : decoder json (the_loader s os) b = (Some m, None)) by (rewrite H2, P; exact C).
      destruct (load_bytes str json s t os pv b m R HL H1 E O C') as (r & L & E1 & E2 & E3 & _ & A & M & MT). exists r. split; [exact L|].
      split; [exact (bytes_reached str json s t os pv b m r R HL H1 E O C' L)|]. split; [exact E3|]. split; [split; [discriminate|auto]|]. split; [|auto]. intros k. rewrite <- (lplaces_layer str json). now apply holds_data.
    - destruct (load_error str json s t os pv d n HL H1 E) as (r & L & E1 & E2 & E3 & _ & E4). exists r. rewrite E3. split; [exact L|].
      split; [exact R|]. split; [exact E4|]. split; [rewrite E1; split; congruence|]. auto.
    - destruct (load_once_error str json s t os pv b e HL H1 E O) as (r & L & E1 & E2 & E3 & _ & E4). exists r. rewrite E3. split; [exact L|].
      split; [exact R|]. split; [exact E4|]. split; [rewrite E1; split; congruence|]. auto.
    - assert (C' : decoder json (the_loader s os) b = (m, Some e)) by (rewrite H2, P; exact C).
      destruct (load_codec_error str json s t os pv b m e HL H1 E O C') as (r & L & E1 & E2 & E3 & _ & E4). exists r. rewrite E3. split; [exact L|].
      split; [exact R|]. split; [exact E4|]. split; [rewrite E1; split; congruence|]. auto.
Qed.

(** several Loads, whatever they answer *)
Fixpoint loads (str : gval -> gostring) (json : gostring -> option gmap * option lerr) (oss : list (list lopt)) (s : store) (t : tr)
  : res (store * tr) :=
  match oss with
  | [] => Ok (s, t)
  | os :: oss => do r <- Load str json s t os; loads str json oss (lr_s r) (lr_t r)
  end.
(** the layers, each with the flag the Loads before it left *)
Fixpoint layers (str : gval -> gostring) (h : hdl) (flat : bool) (oss : list (list lopt * option gmap)) : list (list (skey * gval)) :=
  match oss with
  | [] => []
  | (os, m) :: oss => layer str h flat os m :: layers str h (flat_left os flat) oss
  end.
Lemma assoc_last_app (L1 L2 : list (skey * gval)) k c : assoc_last (L1 ++ L2) k c = assoc_last L2 k (assoc_last L1 k c).
Proof. revert c. induction L1 as [|[k0 v0] L1 IH]; intros c; cbn [app assoc_last]; auto. Qed.
Lemma assoc_last_base (L : list (skey * gval)) k : forall c, assoc_last L k c = match assoc_last L k None with Some v => Some v | None => c end.
Proof.
  induction L as [|[k0 v0] L IH]; intros c; cbn [assoc_last]; auto. rewrite IH. rewrite (IH (if str_eqb k0 k then Some v0 else None)).
  destruct (assoc_last L k None); auto. destruct (str_eqb k0 k); auto.
Qed.
Theorem loads_spec str json oss : forall s t, reached t -> so_loading s = false -> Forall (fun x => gives json (fst x) (snd x)) oss ->
  exists s' t', loads str json (map fst oss) s t = Ok (s', t') /\ reached t' /\ so_loading s' = false /\
    (forall k, data_at t' k = match assoc_last (concat (layers str (so_h s) (so_flat s) oss)) k None with Some v => Some v | None => data_at t k end) /\
    (forall k, mod_at t' k = mod_at t k) /\ (forall k, meta_at t' k = meta_at t k).
Proof.
  induction oss as [|[os m] oss IH]; intros s t R HL F; cbn [map loads layers concat assoc_last fst].
  - exists s, t. auto 10.
  - inversion F as [|? ? G F']; subst. cbn [fst snd] in G.
    destruct (load_layer str json s t os m R HL G) as (r & E & R1 & L1 & _ & D1 & M1 & T1 & _). rewrite E. cbn [bind].
    destruct (load_left str json s t os r HL E) as [K1 K2].
    destruct (IH (lr_s r) (lr_t r) R1 L1 F') as (s' & t' & E' & R' & L' & D' & M' & T'). exists s', t'. split; [exact E'|].
    split; [exact R'|]. split; [exact L'|]. split; [|split].
    + intros k. rewrite D', K1, K2, D1, assoc_last_app, (assoc_last_base (concat (layers str (so_h s) (flat_left os (so_flat s)) oss)) k
        (assoc_last (layer str (so_h s) (so_flat s) os m) k None)).
      destruct (assoc_last (concat (layers str (so_h s) (flat_left os (so_flat s)) oss)) k None); reflexivity.
    + intros k. now rewrite M', M1.
    + intros k. now rewrite T', T1.
Qed.
Lemma concat_last (Ls : list (list (skey * gval))) k : forall c, (forall L, In L Ls -> ~ In k (map fst L)) -> assoc_last (concat Ls) k c = c.
Proof.
  induction Ls as [|L Ls IH]; intros c H; cbn [concat]; [reflexivity|]. rewrite assoc_last_app, IH by (intros L' I; apply H; now right).
  rewrite assoc_last_base, assoc_last_out; [reflexivity|]. apply H. now left.
Qed.
(** a key has the value of the last layer that has it *)
Theorem loads_last str json oss s t a L b k : reached t -> so_loading s = false -> Forall (fun x => gives json (fst x) (snd x)) oss ->
  layers str (so_h s) (so_flat s) oss = a ++ L :: b -> In k (map fst L) -> (forall L', In L' b -> ~ In k (map fst L')) ->
  exists s' t' v, loads str json (map fst oss) s t = Ok (s', t') /\ assoc_last L k None = Some v /\ data_at t' k = Some v.
Proof.
  intros R HL F E I N. destruct (loads_spec str json oss s t R HL F) as (s' & t' & E' & _ & _ & D & _).
  exists s', t'. destruct (assoc_last L k None) as [v|] eqn:A.
  - exists v. split; [exact E'|]. split; [reflexivity|]. rewrite D, E, concat_app. cbn [concat]. rewrite !assoc_last_app, concat_last by exact N.
    now rewrite assoc_last_base, A.
  - exfalso. revert A I. clear. induction L as [|[k0 v0] L IH]; cbn [assoc_last map fst]; [tauto|]. rewrite assoc_last_base.
    destruct (assoc_last L k None) eqn:X; [discriminate|]. destruct (str_eqb k0 k) eqn:Q; [discriminate|]. intros _ [->|I]; [|tauto].
    rewrite str_eqb_refl in Q. discriminate.
Qed.
Theorem loads_other str json oss s t k : reached t -> so_loading s = false -> Forall (fun x => gives json (fst x) (snd x)) oss ->
  (forall L, In L (layers str (so_h s) (so_flat s) oss) -> ~ In k (map fst L)) ->
  exists s' t', loads str json (map fst oss) s t = Ok (s', t') /\ data_at t' k = data_at t k.
Proof.
  intros R HL F N. destruct (loads_spec str json oss s t R HL F) as (s' & t' & E' & _ & _ & D & _).
  exists s', t'. split; [exact E'|]. now rewrite D, concat_last.
Qed.
(** all of it once more *)
Definition no_flat (os : list lopt) : Prop := last_opt opt_flat os = None.
Lemma no_flat_left os f : no_flat os -> flat_left os f = f.
Proof.
  unfold no_flat. induction os as [|o os IH]; cbn [last_opt flat_left]; auto. destruct (last_opt opt_flat os) eqn:E; [discriminate|].
  destruct o; cbn; auto; discriminate.
Qed.
Lemma layers_app str h oss1 : forall f oss2, Forall (fun x => no_flat (fst x)) oss1 ->
  layers str h f (oss1 ++ oss2) = layers str h f oss1 ++ layers str h f oss2.
Proof.
  induction oss1 as [|[os m] oss1 IH]; intros f oss2 F; cbn [app layers]; auto. inversion F as [|? ? N F']; subst. cbn [fst] in N.
  rewrite no_flat_left by exact N. now rewrite IH.
Qed.
Theorem loads_again str json oss s t : reached t -> so_loading s = false -> Forall (fun x => gives json (fst x) (snd x)) oss ->
  Forall (fun x => no_flat (fst x)) oss ->
  exists s1 t1 s2 t2, loads str json (map fst oss) s t = Ok (s1, t1) /\ loads str json (map fst oss) s1 t1 = Ok (s2, t2) /\
    forall k, data_at t2 k = data_at t1 k.
Proof.
  intros R HL F NF. destruct (loads_spec str json oss s t R HL F) as (s1 & t1 & E1 & R1 & L1 & D1 & _).
  destruct (loads_spec str json oss s1 t1 R1 L1 F) as (s2 & t2 & E2 & _ & _ & D2 & _).
  exists s1, t1, s2, t2. split; [exact E1|]. split; [exact E2|].
  assert (K : so_h s1 = so_h s /\ so_flat s1 = so_flat s).
  { clear - HL E1 F NF R. revert s t R HL E1. induction oss as [|[os m] oss IH]; intros s t R HL E1; cbn [map loads fst] in E1; [inversion E1; now subst|].
    inversion F as [|? ? G F']; inversion NF as [|? ? N NF']; subst. cbn [fst snd] in *.
    destruct (load_layer str json s t os m R HL G) as (r & E & R' & L' & _). rewrite E in E1. cbn [bind] in E1.
    destruct (load_left str json s t os r HL E) as [K1 K2]. destruct (IH F' NF' _ _ R' L' E1) as [-> ->]. rewrite K1, K2. split; [reflexivity|].
    now apply no_flat_left. }
  destruct K as [K1 K2]. intros k. rewrite D2, D1, K1, K2. now destruct (assoc_last _ k None).
Qed.
