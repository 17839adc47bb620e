(** Trees up to the numbers of their nodes: what insertions below a node do does not depend on the numbers, nor on the
    rest of the tree. *)
From Coq Require Import List NArith Bool Arith Lia.
From Verif Require Import GoStr Utf8 Node NodeWf InsertProofs MatchProofs Trie TreeOps Spec Refine Climb ApiRefine Reach Effect
  Derived Derived2 Derived3 Derived4 Derived5 Heap HeapProofs HeapWalk HeapRace.
Import ListNotations.
Open Scope nat_scope.

Fixpoint noid (n : node) : node :=
  mkNode 0 (npath n) (npathS n) (map noid (nkids n)) (ndata n) (ndesc n) (ncmt n) (ntag n) (ntype n).
Lemma noid_eq n : noid n = mkNode 0 (npath n) (npathS n) (map noid (nkids n)) (ndata n) (ndesc n) (ncmt n) (ntag n) (ntype n).
Proof. now destruct n. Qed.
Definition heads (n n' : node) : Prop :=
  npath n = npath n' /\ npathS n = npathS n' /\ ndata n = ndata n' /\ ndesc n = ndesc n' /\ ncmt n = ncmt n' /\ ntag n = ntag n' /\ ntype n = ntype n'.
Lemma noid_inv n n' : noid n = noid n' <-> heads n n' /\ map noid (nkids n) = map noid (nkids n').
Proof.
  unfold heads. rewrite (noid_eq n), (noid_eq n'). split.
  - intros H. inversion H. repeat split; congruence.
  - intros ((A & B & C & D & E & F & G) & H). congruence.
Qed.
Lemma noid_path n n' : noid n = noid n' -> npath n = npath n'.
Proof. intros H. now apply noid_inv in H as [[H _] _]. Qed.
Lemma noid_len n n' : noid n = noid n' -> length (nkids n) = length (nkids n').
Proof. intros H. apply noid_inv in H as [_ H]. apply (f_equal (@length node)) in H. now rewrite !map_length in H. Qed.
Lemma noid_kids n ks ks' n' : heads n n' -> map noid ks = map noid ks' -> noid (set_kids n ks) = noid (set_kids n' ks').
Proof. intros H K. apply noid_inv. split; [exact H|exact K]. Qed.

Lemma match_noid word : forall ks ks', map noid ks = map noid ks' ->
  match matchChildren word ks, matchChildren word ks' with
  | Ok (Some (l, c, r)), Ok (Some (l', c', r')) => map noid l = map noid l' /\ noid c = noid c' /\ map noid r = map noid r'
  | Ok None, Ok None | Panic, Panic | Fuel, Fuel => True
  | _, _ => False
  end.
Proof.
  induction ks as [|k ks IH]; intros [|k' ks'] E; cbn [map] in E; try discriminate; cbn [matchChildren]; auto.
  injection E as E1 E2. rewrite <- (noid_path _ _ E1). destruct (npath k) as [|c p]; auto. destruct word as [|w word]; auto.
  destruct (c =? w)%N; [auto|]. specialize (IH ks' E2).
  destruct (matchChildren (w :: word) ks) as [[[[l x] r]|]| |], (matchChildren (w :: word) ks') as [[[[l' x'] r']|]| |]; cbn [bind]; try tauto.
  destruct IH as (A & B & C). cbn. split; [congruence|auto].
Qed.
Lemma split_noid n n' pos nx nx' : noid n = noid n' ->
  match split n pos nx, split n' pos nx' with
  | Ok b, Ok b' => noid b = noid b'
  | Panic, Panic => True
  | _, _ => False
  end.
Proof.
  intros E. apply noid_inv in E as [(A & B & C & D & F & G & H) K]. unfold split. rewrite <- A, <- B.
  destruct (_ <=? _); auto. apply noid_inv. split; [repeat split|]. cbn [nkids map]. f_equal. apply noid_inv. split; [repeat split; cbn; congruence|exact K].
Qed.
(** the node at a position: which child, again and again *)
Fixpoint at_pos (p : list nat) (n : node) : option node :=
  match p with [] => Some n | i :: p => match nth_error (nkids n) i with Some k => at_pos p k | None => None end end.
(** the node [a] is in [x] where the node [b] is in [y] *)
Definition spot (x : node) (a : nat) (y : node) (b : nat) : Prop :=
  exists p c c', at_pos p x = Some c /\ nid c = a /\ at_pos p y = Some c' /\ nid c' = b.
Lemma spot_self x y : spot x (nid x) y (nid y).
Proof. exists [], x, y. auto. Qed.
Lemma spot_kid x y l l' c c' r r' a b : length l = length l' -> nkids x = l ++ c :: r -> nkids y = l' ++ c' :: r' -> spot c a c' b -> spot x a y b.
Proof.
  intros L E E' (p & d & d' & A & B & C & D). exists (length l :: p), d, d'. cbn [at_pos]. rewrite E, E', !nth_error_app2 by lia.
  rewrite L, !Nat.sub_diag. cbn [nth_error]. auto.
Qed.
Lemma spot_leaf b b' w fp v x x' : noid b = noid b' -> spot (insertAsLeaf b w fp v x) x (insertAsLeaf b' w fp v x') x'.
Proof.
  intros E. apply (spot_kid _ _ (nkids b) (nkids b') (new_leaf w fp v x) (new_leaf w fp v x') [] []); [now apply noid_len|reflexivity|reflexivity|].
  apply (spot_self (new_leaf w fp v x) (new_leaf w fp v x')).
Qed.
Definition same_ins (x y : res ires) : Prop :=
  match x, y with
  | Ok a, Ok b => noid (ir_node a) = noid (ir_node b) /\ ir_old a = ir_old b /\ spot (ir_node a) (ir_id a) (ir_node b) (ir_id b)
  | Panic, Panic | Fuel, Fuel => True
  | _, _ => False
  end.
Lemma ins_noid f : forall n n' word fp v nx nx', noid n = noid n' ->
  same_ins (insertInternal f n word fp v nx) (insertInternal f n' word fp v nx').
Proof.
  induction f as [|f IH]; intros n n' word fp v nx nx' E; [exact I|]. cbn [insertInternal].
  rewrite <- (noid_path _ _ E), <- (noid_len _ _ E).
  assert (LEAF : forall b b' w x x', noid b = noid b' -> noid (insertAsLeaf b w fp v x) = noid (insertAsLeaf b' w fp v x')).
  { intros b b' w x x' Eb. apply noid_inv in Eb as [Hd K]. apply noid_kids; [exact Hd|]. rewrite !map_app, K. reflexivity. }
  destruct (_ && _); [split; [now apply LEAF|split; [reflexivity|now apply spot_leaf]]|].
  set (cpl := if (0 <? length (npath n)) && (0 <? length word) then cpl_len word (npath n) else 0).
  assert (ST : match (if cpl <? length (npath n) then do b <- split n cpl nx; Ok (b, S nx) else Ok (n, nx)),
                     (if cpl <? length (npath n) then do b <- split n' cpl nx'; Ok (b, S nx') else Ok (n', nx')) with
               | Ok (b, _), Ok (b', _) => noid b = noid b'
               | Panic, Panic => True
               | _, _ => False
               end).
  { destruct (cpl <? length (npath n)); [|exact E]. pose proof (split_noid n n' cpl nx nx' E) as S.
    destruct (split n cpl nx) as [b| |], (split n' cpl nx') as [b'| |]; cbn [bind]; auto. }
  destruct (if cpl <? length (npath n) then do b <- split n cpl nx; Ok (b, S nx) else Ok (n, nx)) as [[b nx1]| |],
    (if cpl <? length (npath n) then do b <- split n' cpl nx'; Ok (b, S nx') else Ok (n', nx')) as [[b' nx1']| |]; cbn [bind]; try tauto.
  destruct (cpl <? length word).
  - set (word' := if 0 <? cpl then skipn cpl word else word).
    pose proof ST as ST'. apply noid_inv in ST' as [Hd K]. pose proof (match_noid word' _ _ K) as M.
    destruct (matchChildren word' (nkids b)) as [[[[l c] r]|]| |], (matchChildren word' (nkids b')) as [[[[l' c'] r']|]| |]; cbn [bind]; try tauto.
    + destruct M as (M1 & M2 & M3). specialize (IH c c' word' fp v nx1 nx1' M2).
      destruct (insertInternal f c word' fp v nx1) as [ir| |], (insertInternal f c' word' fp v nx1') as [ir'| |]; cbn [bind]; auto.
      cbn in IH. destruct IH as (I1 & I2 & I3). split; [|split; [exact I2|]].
      * apply noid_kids; [exact Hd|]. rewrite !map_app. cbn [map]. congruence.
      * apply (f_equal (@length node)) in M1. rewrite !map_length in M1.
        apply (spot_kid _ _ l l' (ir_node ir) (ir_node ir') r r'); auto.
    + split; [now apply LEAF|split; [reflexivity|now apply spot_leaf]].
  - cbn [same_ins ir_node ir_old ir_id]. apply noid_inv in ST as [(A & B & C & D & F & G & H) K]. split; [|split; [exact C|apply (spot_self (setData v b) (setData v b'))]].
    apply noid_inv. split; [repeat split; cbn; congruence|exact K].
Qed.
Lemma root_noid t t' k v : noid (root t) = noid (root t') ->
  match insert_root t k v, insert_root t' k v with
  | Ok (u, _), Ok (u', _) => noid (root u) = noid (root u')
  | Panic, Panic | Fuel, Fuel => True
  | _, _ => False
  end.
Proof.
  intros E. unfold insert_root. pose proof (ins_noid (S (S (length (runes k)))) _ _ (runes k) k v (next t) (next t') E) as I.
  destruct (insertInternal _ (root t) _ _ _ _) as [ir| |], (insertInternal _ (root t') _ _ _ _) as [ir'| |]; cbn [bind] in *; auto. apply I.
Qed.

(** ** numbers do not matter for the shape *)
Lemma noid_wfn n : forall n', noid n = noid n' -> wfn n -> wfn n'.
Proof.
  induction n as [n IH] using node_ind'. intros n' E W. apply noid_inv in E as [_ K].
  assert (X : map npath (nkids n') = map npath (nkids n)).
  { clear -K. revert K. generalize (nkids n) (nkids n'). induction l as [|k l IH]; intros [|k' l'] K; cbn in *; try discriminate; auto.
    injection K as K1 K2. f_equal; [symmetry; now apply noid_path|auto]. }
  constructor.
  - replace (map fst_rune (nkids n')) with (map fst_rune (nkids n)); [now apply wfn_nodup|].
    unfold fst_rune. rewrite <- !(map_map npath (@hd_error rune)). now rewrite X.
  - pose proof (wfn_forall n W) as F. clear -F IH K. revert F IH K. generalize (nkids n) (nkids n').
    induction l as [|k l IHl]; intros [|k' l'] F IH K; cbn in K; try discriminate; constructor.
    + inversion F as [|? ? [F1 F2] F3]; subst. inversion IH; subst. injection K as K1 K2. split; [|auto]. now rewrite <- (noid_path _ _ K1).
    + inversion F; subst. inversion IH; subst. injection K as K1 K2. auto.
Qed.
(** the entries correspond *)
Lemma noid_ents n : forall n' pre, noid n = noid n' ->
  Forall2 (fun e f : key_t * node => fst e = fst f /\ noid (snd e) = noid (snd f)) (ents pre n) (ents pre n').
Proof.
  induction n as [n IH] using node_ind'. intros n' pre E. rewrite !ents_eq. rewrite <- (noid_path _ _ E).
  constructor; [auto|]. apply noid_inv in E as [_ K]. revert IH K. generalize (nkids n) (nkids n').
  induction l as [|k l IHl]; intros [|k' l'] IH K; cbn in K; try discriminate; cbn; [constructor|].
  inversion IH; subst. injection K as K1 K2. apply Forall2_app; auto.
Qed.
Lemma noid_get t t' k : noid (root t) = noid (root t') -> t_get t k = t_get t' k.
Proof.
  intros E. unfold t_get, entries. rewrite !entries_lookup. unfold ients.
  pose proof (noid_ents _ _ [] E) as F. induction F as [|[k1 n] [k2 n'] l l' [H1 H2] _ IH]; cbn; auto. cbn in H1, H2. subst k2.
  destruct (str_eqb k1 k); [|exact IH]. cbn. f_equal. apply noid_inv in H2 as [(A & B & C & D & F & G & H) _].
  unfold attr_of, info_of. cbn. congruence.
Qed.
Lemma noid_root n n' : noid n = noid n' -> wf_root n -> wf_root n'.
Proof.
  intros E (W1 & W2 & W3). split; [|split].
  - now rewrite <- (noid_path _ _ E).
  - now apply noid_wfn with n.
  - intros k m' Hin. pose proof (noid_ents _ _ [] E) as F. revert F Hin W3. unfold plen. generalize (ents [] n) (ents [] n'). intros l l' F.
    induction F as [|[k1 x] [k2 x'] l l' [H1 H2] _ IH]; intros Hin W3; [easy|]. cbn in H1, H2. subst k2. destruct Hin as [Q|Hin].
    + injection Q as -> ->. apply noid_inv in H2 as [(_ & B & _) _]. rewrite <- B. apply W3. now left.
    + apply IH; auto. intros q y Hq. apply W3. now right.
Qed.

(** ** a node and the tree around it *)
Inductive ctx := Hole | Down (n : node) (l : list node) (C : ctx) (r : list node).
Fixpoint plug (C : ctx) (m : node) : node :=
  match C with Hole => m | Down n l C r => set_kids n (l ++ plug C m :: r) end.
Fixpoint clen (C : ctx) : nat := match C with Hole => 0 | Down _ _ C _ => S (clen C) end.
Fixpoint cpre (C : ctx) : list rune := match C with Hole => [] | Down n _ C _ => npath n ++ cpre C end.
Definition cpath (C : ctx) (p : list rune) : list rune := match C with Hole => p | Down n _ _ _ => npath n end.
(** the way down is the only one for words that lead to the hole *)
Fixpoint cok (C : ctx) (p : list rune) : Prop :=
  match C with
  | Hole => True
  | Down n l C r => cpath C p <> [] /\ (forall k, In k l -> npath k <> [] /\ hd_error (npath k) <> hd_error (cpath C p)) /\ cok C p
  end.
Lemma plug_path C m : npath (plug C m) = cpath C (npath m).
Proof. destruct C; reflexivity. Qed.
Lemma cpath_pre C p : exists z, cpre C ++ p = cpath C p ++ z.
Proof. destruct C as [|n l C r]; [exists []; now rewrite app_nil_r|]. cbn. exists (cpre C ++ p). now rewrite app_assoc. Qed.
Lemma ents_ctx n : forall pre k m, In (k, m) (ents pre n) -> exists C, plug C m = n /\ k = pre ++ cpre C ++ npath m.
Proof.
  induction n as [n IH] using node_ind'. intros pre k m. rewrite ents_eq. intros [X|X].
  - injection X as <- <-. exists Hole. auto.
  - apply in_flat_map in X. destruct X as (c & Hc & X). rewrite Forall_forall in IH. destruct (IH c Hc _ _ _ X) as (C & E & ->).
    apply in_split in Hc. destruct Hc as (l & r & Ek). exists (Down n l C r). cbn. rewrite E, <- Ek. split; [now destruct n|].
    now rewrite !app_assoc.
Qed.
Lemma wfn_cok C m : wfn (plug C m) -> cok C (npath m).
Proof.
  induction C as [|n l C IH r]; cbn [plug cok]; auto. intros W. pose proof (wfn_forall _ W) as F. cbn [nkids set_kids] in F.
  rewrite Forall_forall in F. rewrite <- !plug_path. assert (HP : In (plug C m) (l ++ plug C m :: r)) by (apply in_app_iff; right; now left).
  split; [now apply F|]. split; [|apply IH; now apply F]. intros k Hk. split; [apply F; apply in_app_iff; auto|].
  pose proof (wfn_nodup _ W) as ND. cbn [nkids set_kids] in ND. rewrite map_app in ND. cbn [map] in ND. intros Q.
  apply NoDup_remove_2 in ND. apply ND. apply in_app_iff. left. unfold fst_rune at 1. rewrite <- Q. now apply (in_map fst_rune).
Qed.
Lemma match_left w word l c r : (forall k, In k l -> npath k <> [] /\ hd_error (npath k) <> Some w) -> hd_error (npath c) = Some w ->
  matchChildren (w :: word) (l ++ c :: r) = Ok (Some (l, c, r)).
Proof.
  intros F H. induction l as [|k l IH]; cbn [app matchChildren].
  - destruct (npath c) as [|x p]; [discriminate|]. cbn in H. injection H as ->. now rewrite N.eqb_refl.
  - destruct (F k (or_introl eq_refl)) as [F1 F2]. destruct (npath k) as [|x p]; [congruence|]. cbn in F2.
    destruct (N.eqb_spec x w) as [->|_]; [congruence|]. rewrite IH; [reflexivity|]. intros q Hq. apply F. now right.
Qed.
(** one step down *)
Lemma down_facts n l C r p rest : cok (Down n l C r) p ->
  exists w word, cpre C ++ p ++ rest = w :: word /\ hd_error (cpath C p) = Some w.
Proof.
  intros (NE & _). destruct (cpath_pre C p) as [z Ez]. rewrite app_assoc, Ez. destruct (cpath C p) as [|w q]; [congruence|].
  exists w, (q ++ z ++ rest). split; [|reflexivity]. cbn. now rewrite <- app_assoc.
Qed.
Lemma no_split (p z : list rune) :
  (if (0 <? length p) && (0 <? length (p ++ z)) then cpl_len (p ++ z) p else 0) = length p.
Proof. rewrite cpl_app. destruct p; reflexivity. Qed.
(** insertion leads down to the hole *)
Lemma ctx_insert C m f rest fp v nx : cok C (npath m) ->
  match insertInternal f m (npath m ++ rest) fp v nx with
  | Ok ir => exists ir', insertInternal (clen C + f) (plug C m) (cpre C ++ npath m ++ rest) fp v nx = Ok ir' /\
      ir_node ir' = plug C (ir_node ir) /\ ir_next ir' = ir_next ir /\ ir_old ir' = ir_old ir /\ ir_id ir' = ir_id ir
  | Panic => insertInternal (clen C + f) (plug C m) (cpre C ++ npath m ++ rest) fp v nx = Panic
  | Fuel => insertInternal (clen C + f) (plug C m) (cpre C ++ npath m ++ rest) fp v nx = Fuel
  end.
Proof.
  induction C as [|n l C IH r]; intros OK.
  - cbn. destruct (insertInternal f m (npath m ++ rest) fp v nx) as [ir| |]; eauto 10.
  - destruct (down_facts n l C r (npath m) rest OK) as (w & word & E & HW). destruct OK as (NE & F & OK). specialize (IH OK).
    cbn [clen Nat.add cpre plug insertInternal]. cbn [npath nkids set_kids]. rewrite <- app_assoc. rewrite E in *.
    replace (length (l ++ plug C m :: r) =? 0) with false by (rewrite app_length; cbn; rewrite Nat.add_succ_r; reflexivity).
    rewrite !andb_false_r. rewrite no_split. rewrite Nat.ltb_irrefl. cbn [bind].
    replace (length (npath n) <? length (npath n ++ w :: word)) with true by (symmetry; apply Nat.ltb_lt; rewrite app_length; cbn; lia).
    replace (if 0 <? length (npath n) then skipn (length (npath n)) (npath n ++ w :: word) else npath n ++ w :: word) with (w :: word).
    2: { destruct (npath n) as [|a p]; [reflexivity|]. symmetry. apply skip_app. }
    cbn [nkids set_kids]. rewrite match_left; [|intros k Hk; rewrite <- HW; now apply F|now rewrite plug_path]. cbn [bind].
    destruct (insertInternal f m (npath m ++ rest) fp v nx) as [ir| |].
    + destruct IH as (ir' & -> & A & B & D). cbn [bind]. eexists. split; [reflexivity|]. cbn. rewrite A. auto.
    + now rewrite IH.
    + now rewrite IH.
Qed.

(** ** a part of the tree is replaced *)
Section Graft.
Variable g : nat -> option node.
Fixpoint graft (n : node) : node :=
  match g (nid n) with Some x => x | None => set_kids n (map graft (nkids n)) end.
Lemma graft_eq n : graft n = match g (nid n) with Some x => x | None => set_kids n (map graft (nkids n)) end.
Proof. now destruct n. Qed.
Fixpoint graftc (C : ctx) : ctx :=
  match C with Hole => Hole | Down n l C r => Down n (map graft l) (graftc C) (map graft r) end.
Fixpoint spine (C : ctx) : list nat := match C with Hole => [] | Down n _ C _ => nid n :: spine C end.
Lemma graft_plug C m : (forall a, In a (spine C) -> g a = None) -> graft (plug C m) = plug (graftc C) (graft m).
Proof.
  induction C as [|n l C IH r]; cbn [spine plug graftc]; intros H; [reflexivity|].
  rewrite graft_eq. cbn [nid set_kids nkids]. rewrite (H (nid n)) by now left. rewrite map_app. cbn [map]. rewrite IH by (intros; apply H; now right).
  reflexivity.
Qed.
Lemma graftc_len C : clen (graftc C) = clen C.
Proof. induction C; cbn; congruence. Qed.
Lemma graftc_pre C : cpre (graftc C) = cpre C.
Proof. induction C; cbn; congruence. Qed.
Lemma graft_none n : (forall a, In a (ids n) -> g a = None) -> graft n = n.
Proof.
  induction n as [n IH] using node_ind'. intros H. rewrite graft_eq. rewrite H by (rewrite ids_eq; now left).
  replace (map graft (nkids n)) with (nkids n); [now destruct n|].
  transitivity (map (fun x => x) (nkids n)); [now rewrite map_id|]. apply map_ext_in. intros k Hk. symmetry. rewrite Forall_forall in IH.
  apply IH; auto. intros a Ha. apply H. rewrite ids_eq. right. apply in_flat_map. eauto.
Qed.
End Graft.
Lemma graft_ext g g' n : (forall a, In a (ids n) -> g a = g' a) -> graft g n = graft g' n.
Proof.
  induction n as [n IH] using node_ind'. intros H. rewrite !graft_eq. rewrite <- H by (rewrite ids_eq; now left).
  destruct (g (nid n)); auto. f_equal. apply map_ext_in. intros k Hk. rewrite Forall_forall in IH. apply IH; auto.
  intros a Ha. apply H. rewrite ids_eq. right. apply in_flat_map. eauto.
Qed.
(** one more part *)
Definition also (g : nat -> option node) (a : nat) (x : node) : nat -> option node := fun b => if b =? a then Some x else g b.
Fixpoint around (C : ctx) : list nat :=
  match C with Hole => [] | Down n l C r => nid n :: flat_map ids l ++ around C ++ flat_map ids r end.
Lemma ids_plug C m a : In a (ids (plug C m)) <-> In a (around C) \/ In a (ids m).
Proof.
  induction C as [|n l C IH r]; [cbn; tauto|]. rewrite ids_eq. cbn [plug nid set_kids nkids around]. rewrite flat_map_app. cbn [flat_map In].
  rewrite !in_app_iff, IH. tauto.
Qed.
Lemma nodup_plug C m : NoDup (ids (plug C m)) -> forall a, In a (around C) -> In a (ids m) -> False.
Proof.
  induction C as [|n l C IH r]; [easy|]. rewrite ids_eq. cbn [plug nid set_kids nkids around]. rewrite flat_map_app. cbn [flat_map].
  intros ND a Ha Hm. inversion ND as [|? ? X ND']; subst. destruct Ha as [<-|Ha].
  - apply X. rewrite !in_app_iff, ids_plug. auto.
  - rewrite !in_app_iff in Ha. destruct Ha as [Ha|[Ha|Ha]].
    + apply (NoDup_app_disjoint _ _ ND' a Ha). rewrite in_app_iff, ids_plug. auto.
    + apply (IH (NoDup_app_remove_r _ _ (NoDup_app_remove_l _ _ ND')) a Ha Hm).
    + apply (NoDup_app_disjoint _ _ (NoDup_app_remove_l _ _ ND') a); [apply ids_plug; auto|exact Ha].
Qed.
Lemma spine_around C a : In a (spine C) -> In a (around C).
Proof. induction C as [|n l C IH r]; cbn; auto. rewrite !in_app_iff. tauto. Qed.
Lemma graftc_ext g g' C : (forall a, In a (around C) -> g a = g' a) -> graftc g C = graftc g' C.
Proof.
  induction C as [|n l C IH r]; cbn [graftc around]; intros H; auto.
  assert (X : forall ks, (forall a, In a (flat_map ids ks) -> g a = g' a) -> map (graft g) ks = map (graft g') ks).
  { intros ks Hk. apply map_ext_in. intros k Hin. apply graft_ext. intros a Ha. apply Hk. apply in_flat_map. eauto. }
  f_equal; [apply X|apply IH|apply X]; intros a Ha; apply H; right; rewrite !in_app_iff; auto.
Qed.
Lemma graft_also g C m x : NoDup (ids (plug C m)) -> (forall a, In a (spine C) -> g a = None) ->
  graft (also g (nid m) x) (plug C m) = plug (graftc g C) x.
Proof.
  intros ND H. assert (D : forall a, In a (around C) -> a <> nid m).
  { intros a Ha ->. apply (nodup_plug C m ND (nid m) Ha). rewrite ids_eq. now left. }
  rewrite graft_plug.
  - rewrite (graftc_ext (also g (nid m) x) g C).
    + f_equal. rewrite graft_eq. unfold also. now rewrite Nat.eqb_refl.
    + intros a Ha. unfold also. destruct (Nat.eqb_spec a (nid m)); [destruct (D a Ha e)|reflexivity].
  - intros a Ha. unfold also. destruct (Nat.eqb_spec a (nid m)) as [->|]; [destruct (D (nid m)); [now apply spine_around|reflexivity]|now apply H].
Qed.
Lemma plug_noid C m m' : noid m = noid m' -> noid (plug C m) = noid (plug C m').
Proof.
  intros E. induction C as [|n l C IH r]; [exact E|]. cbn [plug]. apply noid_kids; [repeat split|]. rewrite !map_app. cbn [map]. congruence.
Qed.

(** ** insertions below a node, [d] levels and [pl] runes below the root *)
Fixpoint sec_sets (d pl : nat) (job : list (gostring * gval)) (m : node) : res node :=
  match job with
  | [] => Ok m
  | (k, v) :: job =>
      do ir <- insertInternal (S (S (length (runes k))) - d) m (skipn pl (runes k)) k v 0;
      sec_sets d pl job (ir_node ir)
  end.
Lemma clen_pre C p : cok C p -> cpath C p <> [] -> S (clen C) <= length (cpre C ++ p).
Proof.
  induction C as [|n l C IH r]; cbn [cok cpath clen cpre].
  - intros _ H. destruct p; [congruence|]. cbn. lia.
  - intros (NE & _ & OK) H. specialize (IH OK NE). rewrite <- app_assoc, app_length. destruct (npath n); [congruence|]. cbn [length]. lia.
Qed.
Lemma clen_le C p : cok C p -> clen C <= length (cpre C ++ p).
Proof.
  destruct C as [|n l C r]; cbn [cok clen cpre]; [lia|]. intros (NE & _ & OK). pose proof (clen_pre C p OK NE).
  rewrite <- app_assoc, app_length. lia.
Qed.
Lemma ins_path f m rest fp v nx ir : insertInternal f m (npath m ++ rest) fp v nx = Ok ir -> npath (ir_node ir) = npath m.
Proof.
  destruct f as [|f]; [discriminate|]. cbn [insertInternal]. destruct (_ && (_ && _)); [intros X; injection X as <-; reflexivity|].
  rewrite no_split, Nat.ltb_irrefl. cbn [bind]. destruct (length (npath m) <? _).
  - destruct (matchChildren _ _) as [[[[l c] r]|]| |]; cbn [bind]; try discriminate.
    + destruct (insertInternal f c _ _ _ _); cbn [bind]; try discriminate. intros X. injection X as <-. reflexivity.
    + intros X. injection X as <-. reflexivity.
  - intros X. injection X as <-. reflexivity.
Qed.
Lemma sec_total job : forall C m t, wf_tr t -> noid (root t) = noid (plug C m) ->
  (forall k v, In (k, v) job -> exists rest, runes k = cpre C ++ npath m ++ rest) ->
  exists n t', sec_sets (clen C) (length (cpre C)) job m = Ok n /\ t_sets job t = Ok t' /\ wf_tr t' /\
    noid (root t') = noid (plug C n) /\ npath n = npath m.
Proof.
  induction job as [|[k v] job IH]; intros C m t WT E H; [exists m, t; auto|].
  cbn [sec_sets t_sets]. destruct (insert_root_wf t k v WT) as (t' & ir & EI & WT' & ->). rewrite EI. cbn [bind].
  assert (OK : cok C (npath m)) by (apply wfn_cok; apply noid_wfn with (1 := E); apply WT).
  destruct (H k v (or_introl eq_refl)) as [rest Er].
  pose proof (clen_le C (npath m) OK) as CL.
  set (f := S (S (length (runes k))) - clen C).
  assert (F : S (S (length (runes k))) = clen C + f) by (subst f; rewrite Er, app_assoc, app_length; lia).
  unfold insert_root in EI. destruct (insertInternal _ (root t) _ _ _ _) as [ir1| |] eqn:E1; cbn [bind] in EI; try discriminate.
  assert (ir1 = ir) as -> by congruence. clear EI.
  pose proof (ins_noid (S (S (length (runes k)))) (root t) (plug C m) (runes k) k v (next t) 0 E) as SI. rewrite E1 in SI.
  pose proof (ctx_insert C m f rest k v 0 OK) as CI. rewrite <- F, <- Er in CI.
  replace (skipn (length (cpre C)) (runes k)) with (npath m ++ rest) by (rewrite Er; symmetry; apply skip_app).
  destruct (insertInternal f m (npath m ++ rest) k v 0) as [ir0| |] eqn:E0; [|rewrite CI in SI; destruct SI|rewrite CI in SI; destruct SI].
  destruct CI as (ir2 & CI & N2 & _). rewrite CI in SI. destruct SI as [SI _]. rewrite N2 in SI. cbn [bind].
  pose proof (ins_path _ _ _ _ _ _ _ E0) as EP.
  destruct (IH C (ir_node ir0) (Tr (ir_node ir) (ir_next ir)) WT' SI) as (n & t' & A1 & A2 & A3 & A4 & A5).
  { intros k' v' Hin. rewrite EP. apply (H k' v'). now right. }
  exists n, t'. split; [exact A1|]. split; [exact A2|]. split; [exact A3|]. split; [exact A4|congruence].
Qed.
Lemma sec_noid d pl job : forall m m', noid m = noid m' ->
  match sec_sets d pl job m, sec_sets d pl job m' with
  | Ok n, Ok n' => noid n = noid n'
  | Panic, Panic | Fuel, Fuel => True
  | _, _ => False
  end.
Proof.
  induction job as [|[k v] job IH]; intros m m' E; [exact E|]. cbn [sec_sets].
  pose proof (ins_noid (S (S (length (runes k))) - d) m m' (skipn pl (runes k)) k v 0 0 E) as I.
  destruct (insertInternal _ m _ _ _ _) as [ir| |], (insertInternal _ m' _ _ _ _) as [ir'| |]; cbn [bind same_ins] in *; try tauto. apply IH. apply I.
Qed.

(** ** sections: nodes none of which lies above another, each with the keys to be set below it *)
Record section := Sec { sc_ctx : ctx; sc_node : node; sc_job : list (gostring * gval) }.
Definition sec_in (R : node) (s : section) : Prop :=
  plug (sc_ctx s) (sc_node s) = R /\
  forall k v, In (k, v) (sc_job s) -> exists rest, runes k = cpre (sc_ctx s) ++ npath (sc_node s) ++ rest.
Definition sec_apart (s s' : section) : Prop := ~ In (nid (sc_node s)) (spine (sc_ctx s')) /\ ~ In (nid (sc_node s)) (ids (sc_node s')).
Definition sec_run (s : section) : res node := sec_sets (clen (sc_ctx s)) (length (cpre (sc_ctx s))) (sc_job s) (sc_node s).
(** what the sections have become *)
Fixpoint grown_by (l : list (section * node)) : nat -> option node :=
  match l with [] => fun _ => None | (s, n) :: l => also (grown_by l) (nid (sc_node s)) n end.
Lemma grown_by_none l a : (forall s n, In (s, n) l -> nid (sc_node s) <> a) -> grown_by l a = None.
Proof.
  induction l as [|[s n] l IH]; intros H; [reflexivity|]. cbn. unfold also. destruct (Nat.eqb_spec a (nid (sc_node s))) as [->|_].
  - destruct (H s n (or_introl eq_refl) eq_refl).
  - apply IH. intros s' n' Hin. apply (H s' n'). now right.
Qed.
(** doing the jobs one after the other; the list is in reverse *)
Lemma seq_sections R nx : wf_tr (Tr R nx) -> forall secs, Forall (sec_in R) secs ->
  ForallOrdPairs (fun s s' => sec_apart s s' /\ sec_apart s' s) secs ->
  exists ns t', map sec_run secs = map Ok ns /\ t_sets (concat (map sc_job (rev secs))) (Tr R nx) = Ok t' /\ wf_tr t' /\
    noid (root t') = noid (graft (grown_by (combine secs ns)) R).
Proof.
  intros WT secs. induction secs as [|s secs IH]; intros F A.
  - exists [], (Tr R nx). split; [reflexivity|]. split; [reflexivity|]. split; [exact WT|]. cbn. now rewrite graft_none.
  - inversion F as [|? ? [Hp Hk] F']; subst. inversion A as [|? ? A1 A2]; subst. destruct (IH F' A2) as (ns & t & E1 & E2 & WT1 & E3).
    set (g := grown_by (combine secs ns)) in *. set (C := sc_ctx s) in *. set (m := sc_node s) in *.
    assert (NONE : forall s' n', In (s', n') (combine secs ns) -> sec_apart s' s).
    { intros s' n' Hin. apply in_combine_l in Hin. rewrite Forall_forall in A1. now apply A1. }
    assert (SP : forall a, In a (spine C) -> g a = None).
    { intros a Ha. apply grown_by_none. intros s' n' Hin <-. destruct (NONE s' n' Hin) as [X _]. now apply X. }
    assert (GM : graft g m = m).
    { apply graft_none. intros a Ha. apply grown_by_none. intros s' n' Hin <-. destruct (NONE s' n' Hin) as [_ X]. now apply X. }
    assert (E4 : noid (root t) = noid (plug (graftc g C) m)).
    { rewrite E3. rewrite graft_plug by exact SP. now rewrite GM. }
    destruct (sec_total (sc_job s) (graftc g C) m t WT1 E4) as (n & t' & B1 & B2 & B3 & B4 & B5).
    { intros k v Hin. rewrite graftc_pre. now apply (Hk k v). }
    rewrite graftc_len, graftc_pre in B1.
    exists (n :: ns), t'. split; [cbn [map]; f_equal; [exact B1|exact E1]|]. split; [|split; [exact B3|]].
    + cbn [rev]. rewrite map_app, concat_app. cbn [map concat]. rewrite app_nil_r. clear -E2 B2.
      assert (X : forall l l' u, t_sets (l ++ l') u = do u' <- t_sets l u; t_sets l' u').
      { induction l as [|[k v] l IH]; intros l' u; cbn [app t_sets bind]; [reflexivity|].
        destruct (insert_root u k v) as [[u' ir]| |]; cbn [bind]; auto. }
      rewrite X, E2. exact B2.
    + rewrite B4. cbn [combine grown_by]. fold g. fold m. rewrite graft_also; [reflexivity| |exact SP]. apply WT.
Qed.
