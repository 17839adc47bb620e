(** What an insertion does to the entries of a tree. *)
From Coq Require Import List NArith Bool Arith Lia Permutation.
From Verif Require Import GoStr Node NodeWf.
Import ListNotations.
Open Scope nat_scope.

Definition with_data (v : gval) (i : info) : info :=
  Info (i_id i) (i_key i) v (i_desc i) (i_cmt i) (i_tag i) (N.lor (i_type i) NTData).
Definition with_id (id : nat) (i : info) : info :=
  Info id (i_key i) (i_data i) (i_desc i) (i_cmt i) (i_tag i) (i_type i).
Definition leaf_info (id : nat) (fp : gostring) (v : gval) : info :=
  Info id fp v [] [] GNil (N.lor NTLeaf NTData).
(** the empty branch created at [k0] by splitting the node at [k] *)
Definition cut_info (k0 k : key_t) (i : info) : info :=
  Info (i_id i) (firstn (length (i_key i) - (length k - length k0)) (i_key i))
       GNil [] [] GNil NTBranch.

(** [ins_rel w v fp nx l l' nx' id old]: storing [v] at key [w] turns the entries [l]
    into [l'], the supply of identities from [nx] to [nx'], and returns the node [id]
    and the old data [old]. *)
Inductive ins_rel (w : key_t) (v : gval) (fp : gostring) (nx : nat)
  : list (key_t * info) -> list (key_t * info) -> nat -> nat -> gval -> Prop :=
| ins_hit l1 i l2 :
    ins_rel w v fp nx (l1 ++ (w, i) :: l2) (l1 ++ (w, with_data v i) :: l2)
            nx (i_id i) (i_data i)
| ins_leaf l1 l2 :
    (forall k i, In (k, i) (l1 ++ l2) -> ~ prefix w k) ->
    ins_rel w v fp nx (l1 ++ l2) (l1 ++ (w, leaf_info nx fp v) :: l2) (S nx) nx GNil
| ins_mid l1 k i l2 :
    pprefix w k ->
    ins_rel w v fp nx (l1 ++ (k, i) :: l2)
            (l1 ++ (w, with_data v (cut_info w k i)) :: (k, with_id nx i) :: l2)
            (S nx) (i_id i) GNil
| ins_fork l1 k0 k i l2 l3 :
    pprefix k0 k -> pprefix k0 w -> lcp w k = k0 ->
    (forall k' i', In (k', i') (l1 ++ (k, i) :: l2 ++ l3) -> ~ prefix w k') ->
    ins_rel w v fp nx (l1 ++ (k, i) :: l2 ++ l3)
            (l1 ++ (k0, cut_info k0 k i) :: (k, with_id nx i) :: l2 ++
                   (w, leaf_info (S nx) fp v) :: l3)
            (S (S nx)) (S nx) GNil.

Lemma ins_rel_ctx w v fp nx a b l l' nx' id old :
  (forall k i, In (k, i) (a ++ b) -> ~ prefix w k) ->
  ins_rel w v fp nx l l' nx' id old ->
  ins_rel w v fp nx (a ++ l ++ b) (a ++ l' ++ b) nx' id old.
Proof.
  intros Hab H. destruct H as [l1 i l2 | l1 l2 Hp | l1 k i l2 Hp | l1 k0 k i l2 l3 H1 H2 H3 Hp].
  - assert (E : forall x, a ++ (l1 ++ x :: l2) ++ b = (a ++ l1) ++ x :: (l2 ++ b))
      by (intros; now rewrite <- !app_assoc).
    rewrite !E. apply ins_hit.
  - replace (a ++ (l1 ++ (w, leaf_info nx fp v) :: l2) ++ b)
      with ((a ++ l1) ++ (w, leaf_info nx fp v) :: (l2 ++ b)) by now rewrite <- !app_assoc.
    replace (a ++ (l1 ++ l2) ++ b) with ((a ++ l1) ++ (l2 ++ b)) by now rewrite <- !app_assoc.
    apply ins_leaf. intros k i Hin. rewrite !in_app_iff in Hin.
    assert (In (k, i) (a ++ b) \/ In (k, i) (l1 ++ l2)) as [X|X]
        by (rewrite !in_app_iff; tauto); eauto.
  - replace (a ++ (l1 ++ (w, with_data v (cut_info w k i)) :: (k, with_id nx i) :: l2) ++ b)
      with ((a ++ l1) ++ (w, with_data v (cut_info w k i)) :: (k, with_id nx i) :: (l2 ++ b))
      by now rewrite <- !app_assoc.
    replace (a ++ (l1 ++ (k, i) :: l2) ++ b) with ((a ++ l1) ++ (k, i) :: (l2 ++ b))
      by now rewrite <- !app_assoc.
    now apply ins_mid.
  - replace (a ++ (l1 ++ (k, i) :: l2 ++ l3) ++ b)
      with ((a ++ l1) ++ (k, i) :: l2 ++ (l3 ++ b))
      by (rewrite <- !app_assoc; cbn; now rewrite <- !app_assoc).
    replace (a ++ (l1 ++ (k0, cut_info k0 k i) :: (k, with_id nx i) :: l2 ++
                      (w, leaf_info (S nx) fp v) :: l3) ++ b)
      with ((a ++ l1) ++ (k0, cut_info k0 k i) :: (k, with_id nx i) :: l2 ++
                      (w, leaf_info (S nx) fp v) :: (l3 ++ b))
      by (rewrite <- !app_assoc; cbn; now rewrite <- !app_assoc).
    apply ins_fork; auto. intros k' i' Hin.
    assert (In (k', i') (a ++ b) \/ In (k', i') (l1 ++ (k, i) :: l2 ++ l3)) as [X|X]; eauto.
    revert Hin. rewrite !in_app_iff. cbn. rewrite !in_app_iff. tauto.
Qed.

Lemma matchChildren_spec w0 w ks :
  Forall (fun c => npath c <> [] /\ wfn c) ks ->
  (exists l c r, matchChildren (w0 :: w) ks = Ok (Some (l, c, r)) /\ ks = l ++ c :: r /\
                 fst_rune c = Some w0) \/
  (matchChildren (w0 :: w) ks = Ok None /\ forall c, In c ks -> fst_rune c <> Some w0).
Proof.
  induction 1 as [|k ks [Hne Wk] F IH]; cbn [matchChildren].
  - right. split; auto.
  - unfold fst_rune in *. destruct (npath k) as [|c p] eqn:E; [congruence|].
    destruct (N.eqb_spec c w0) as [->|Hc].
    + left. exists [], k, ks. rewrite E. auto.
    + destruct IH as [(l & x & r & -> & -> & Hx)|[-> Hx]]; cbn.
      * left. exists (k :: l), x, r. auto.
      * right. split; auto. intros x [<-|Hin]; auto. rewrite E. cbn. congruence.
Qed.

Definition calls_ok (fp : gostring) (old : gval) (id : nat) (cs : list cbcall) : Prop :=
  cs <> [] /\ Forall (eq (fp, old, id)) cs.

Definition plen (pre : key_t) (n : node) : Prop :=
  forall k m, In (k, m) (ents pre n) -> length k <= length (npathS m).

Lemma plen_kid pre n c : plen pre n -> In c (nkids n) -> plen (pre ++ npath n) c.
Proof.
  intros H Hc k m Hin. apply (H k m). rewrite ents_eq. right. apply in_flat_map. eauto.
Qed.
Lemma plen_self pre n : plen pre n -> length (pre ++ npath n) <= length (npathS n).
Proof. intros H. apply (H _ n). rewrite ents_eq. now left. Qed.

Lemma kents_noprefix pre w0 w ks :
  Forall (fun c => npath c <> [] /\ wfn c) ks ->
  (forall c, In c ks -> fst_rune c <> Some w0) ->
  forall k i, In (k, i) (kents pre ks) -> ~ prefix (pre ++ w0 :: w) k.
Proof.
  intros F H k i Hin [z E]. apply kents_head in Hin; auto.
  destruct Hin as (c & r & y & Hc & Hr & -> & _). rewrite <- app_assoc in E.
  apply app_inj_head in E. destruct E as [-> _]. now apply (H c).
Qed.
Lemma noprefix_self pre w0 w : ~ prefix (pre ++ w0 :: w) pre.
Proof. intros H. apply prefix_len in H. rewrite app_length in H. cbn in H. lia. Qed.

(** the part of insertInternal after a possible split, when the whole fragment matches *)
Lemma insert_full_aux f s pre word0 fp v nx :
  wfn s -> plen pre s ->
  (forall c w0 w, In c (nkids s) -> word0 = w0 :: w -> fst_rune c = Some w0 ->
     exists ir, insertInternal f c word0 fp v nx = Ok ir /\
       wfn (ir_node ir) /\ npath (ir_node ir) <> [] /\ fst_rune (ir_node ir) = fst_rune c /\
       ins_rel (pre ++ npath s ++ word0) v fp nx (ients (pre ++ npath s) c)
               (ients (pre ++ npath s) (ir_node ir)) (ir_next ir) (ir_id ir) (ir_old ir) /\
       calls_ok fp (ir_old ir) (ir_id ir) (ir_calls ir)) ->
  exists ir,
    (match word0 with
     | [] => Ok (IRes (setData v s) nx (nid s) (ndata s) [(fp, ndata s, nid s)])
     | _ =>
        do m <- matchChildren word0 (nkids s);
        match m with
        | Some (l, child, r) =>
            do ir <- insertInternal f child word0 fp v nx;
            Ok (IRes (set_kids s (l ++ ir_node ir :: r)) (ir_next ir) (ir_id ir)
                     (ir_old ir) (ir_calls ir ++ [(fp, ir_old ir, ir_id ir)]))
        | None =>
            Ok (IRes (insertAsLeaf s word0 fp v nx) (S nx) nx GNil [(fp, GNil, nx)])
        end
     end) = Ok ir /\
    wfn (ir_node ir) /\ npath (ir_node ir) = npath s /\
    ins_rel (pre ++ npath s ++ word0) v fp nx (ients pre s) (ients pre (ir_node ir))
            (ir_next ir) (ir_id ir) (ir_old ir) /\
    calls_ok fp (ir_old ir) (ir_id ir) (ir_calls ir).
Proof.
  intros W PL IH. destruct word0 as [|w0 w].
  - eexists; split; [reflexivity|]; cbn [ir_node ir_next ir_id ir_old ir_calls].
    split; [|split; [reflexivity|split]].
    + inversion W; subst. constructor; auto.
    + rewrite app_nil_r. rewrite (ients_eq pre s), (ients_eq pre (setData v s)).
      apply (ins_hit (pre ++ npath s) v fp nx [] (info_of s)).
    + split; [discriminate|repeat constructor].
  - inversion W as [? ND F]; subst.
    destruct (matchChildren_spec w0 w (nkids s) F) as [(l & c & r & -> & Ek & Hc)|[-> Hno]];
      cbn [bind].
    + assert (Hin : In c (nkids s)) by (rewrite Ek; apply in_elt).
      destruct (IH c w0 w Hin eq_refl Hc) as (ir & -> & W' & Hne' & Hf' & R & C).
      cbn [bind]. eexists; split; [reflexivity|]; cbn [ir_node ir_next ir_id ir_old ir_calls].
      split; [|split; [reflexivity|split]].
      * constructor; cbn [nkids set_kids].
        -- rewrite Ek in ND. rewrite map_app in *. cbn in *. now rewrite Hf'.
        -- rewrite Ek in F. apply Forall_app in F. destruct F as [F1 F2]. inversion F2; subst.
           apply Forall_app. split; auto.
      * rewrite (ients_eq pre s). rewrite Ek.
        rewrite (ients_eq pre (set_kids _ _)). cbn [nkids set_kids npath].
        change (info_of (set_kids s (l ++ ir_node ir :: r))) with (info_of s).
        rewrite !kents_app, !kents_cons.
        rewrite !app_comm_cons. rewrite app_assoc.
        apply ins_rel_ctx; [|rewrite app_assoc in R; exact R].
        intros k i Hki. rewrite in_app_iff in Hki. cbn [In] in Hki.
        assert (X : (pre ++ npath s, info_of s) = (k, i) \/
                    In (k, i) (kents (pre ++ npath s) (l ++ r)))
          by (rewrite kents_app, in_app_iff; tauto).
        destruct X as [X|X].
        -- inversion X; subst. apply noprefix_self.
        -- rewrite Ek in F, ND.
           eapply (kents_noprefix _ w0 w (l ++ r)); eauto.
           ++ apply Forall_app in F. destruct F as [F1 F2]. inversion F2; subst.
              apply Forall_app. auto.
           ++ intros x Hx Hfx. rewrite map_app in ND. cbn in ND.
              apply NoDup_remove_2 in ND. apply ND. rewrite Hc, <- Hfx, <- map_app.
              now apply in_map.
      * destruct C as [C1 C2]. split.
        -- destruct (ir_calls ir); discriminate.
        -- apply Forall_app. split; auto.
    + eexists; split; [reflexivity|]; cbn [ir_node ir_next ir_id ir_old ir_calls].
      split; [|split; [reflexivity|split]].
      * unfold insertAsLeaf, new_leaf. constructor; cbn [nkids set_kids].
        -- rewrite map_app. cbn. apply (Permutation_NoDup (l := Some w0 :: map fst_rune (nkids s))).
           ++ apply Permutation_cons_append.
           ++ constructor; auto. rewrite in_map_iff. intros (x & E & Hx). now apply (Hno x).
        -- apply Forall_app. split; auto. constructor; [|constructor].
           cbn. split; [discriminate|]. constructor; constructor.
      * rewrite (ients_eq pre s), (ients_eq pre (insertAsLeaf _ _ _ _ _)).
        unfold insertAsLeaf. cbn [nkids set_kids npath].
        change (info_of (set_kids s (nkids s ++ [new_leaf (w0 :: w) fp v nx]))) with (info_of s).
        rewrite kents_app. cbn [kents flat_map]. rewrite app_nil_r, ients_eq. cbn [npath new_leaf nkids kents flat_map].
        rewrite app_comm_cons.
        rewrite <- (app_assoc pre).
        pose proof (ins_leaf (pre ++ npath s ++ w0 :: w) v fp nx
          ((pre ++ npath s, info_of s) :: kents (pre ++ npath s) (nkids s)) []) as X.
        rewrite app_nil_r in X. apply X. clear X. intros k i [E|Hki].
        -- inversion E; subst. rewrite app_assoc. apply noprefix_self.
        -- rewrite app_assoc. eapply kents_noprefix; eauto.
      * split; [discriminate|repeat constructor].
Qed.

Lemma insert_nonroot fp v :
  forall f s pre word nx,
  length word < f -> wfn s -> npath s <> [] -> plen pre s ->
  hd_error word = fst_rune s ->
  exists ir, insertInternal f s word fp v nx = Ok ir /\
    wfn (ir_node ir) /\ npath (ir_node ir) <> [] /\ fst_rune (ir_node ir) = fst_rune s /\
    ins_rel (pre ++ word) v fp nx (ients pre s) (ients pre (ir_node ir))
            (ir_next ir) (ir_id ir) (ir_old ir) /\
    calls_ok fp (ir_old ir) (ir_id ir) (ir_calls ir).
Proof.
  induction f as [|f IH]; intros s pre word nx Hf W Hne PL Hhd; [lia|].
  cbn [insertInternal].
  assert (Hpl : 0 < length (npath s)) by (destruct (npath s); [congruence|cbn; lia]).
  assert (Hwl : 0 < length word).
  { destruct word; [|cbn; lia]. unfold fst_rune in Hhd. destruct (npath s); [congruence|discriminate]. }
  destruct (Nat.eqb_spec (length (npath s)) 0) as [|_]; [lia|]. cbn [andb].
  destruct (Nat.ltb_spec 0 (length (npath s))) as [_|]; [|lia].
  destruct (Nat.ltb_spec 0 (length word)) as [_|]; [|lia]. cbn [andb].
  set (c := cpl_len word (npath s)).
  pose proof (cpl_len_lcp word (npath s)) as Hl. fold c in Hl.
  pose proof (cpl_len_length word (npath s)) as Hc. fold c in Hc.
  destruct (lcp_split word (npath s)) as (x & y & Ex & Ey & Hd).
  assert (Hp0 : lcp word (npath s) <> []).
  { clear - Hpl Hwl Hhd. unfold fst_rune in *.
    destruct word as [|a w], (npath s) as [|b p]; cbn in *; try lia.
    inversion Hhd; subst. rewrite N.eqb_refl. discriminate. }
  remember (lcp word (npath s)) as p0 eqn:Ep0.
  assert (Hcpos : 0 < c) by (destruct p0; [congruence | cbn in *; lia]).
  assert (Hskw : skipn c word = x).
  { rewrite Ex, Hc. rewrite skipn_app, skipn_all, Nat.sub_diag. reflexivity. }
  assert (Hskp : skipn c (npath s) = y).
  { rewrite Ey at 1. rewrite Hc, skipn_app, skipn_all, Nat.sub_diag. reflexivity. }
  assert (Hwlen : length word = c + length x) by (rewrite Ex at 1; rewrite app_length; lia).
  assert (Hplen : length (npath s) = c + length y) by (rewrite Ey at 1; rewrite app_length; lia).
  destruct (Nat.ltb_spec 0 c) as [_|]; [|lia].
  rewrite Hskw. clear Hcpos.
  destruct (Nat.ltb_spec c (length (npath s))) as [Hlt|Hge].
  - (* split *)
    assert (Hy : y <> []) by (destruct y; [cbn in Hplen; lia|discriminate]).
    unfold split. pose proof (plen_self _ _ PL) as Hps. rewrite app_length in Hps.
    destruct (Nat.leb_spec (length (npath s) - c) (length (npathS s))) as [Hle|]; [|lia].
    cbn [bind]. rewrite Hl, Hskp.
    set (lower := mkNode nx y (npathS s) (nkids s) (ndata s) (ndesc s) (ncmt s) (ntag s) (ntype s)).
    set (up := mkNode (nid s) p0 (firstn (length (npathS s) - (length (npath s) - c)) (npathS s))
                      [lower] GNil [] [] GNil NTBranch).
    assert (Wl : wfn lower) by (inversion W; subst; constructor; auto).
    assert (Wu : wfn up).
    { constructor; cbn [nkids up].
      - constructor; [easy|constructor].
      - constructor; [|constructor]. split; auto. }
    assert (Hpk : pprefix (pre ++ p0) (pre ++ npath s)).
    { destruct y as [|y0 y']; [congruence|]. exists y0, y'. rewrite Ey at 1. now rewrite app_assoc. }
    assert (Elow : forall q, ients (pre ++ p0) lower ++ q =
              (pre ++ npath s, with_id nx (info_of s)) :: kents (pre ++ npath s) (nkids s) ++ q).
    { intros q. rewrite ients_eq. cbn [npath lower nkids]. rewrite <- app_assoc, <- Ey. reflexivity. }
    assert (Ecut : info_of up = cut_info (pre ++ p0) (pre ++ npath s) (info_of s)).
    { unfold info_of, cut_info, up; cbn. f_equal. f_equal. f_equal.
      rewrite !app_length. lia. }
    destruct x as [|x0 x'].
    + (* the word ends inside the fragment *)
      rewrite app_nil_r in Ex.
      destruct (Nat.ltb_spec c (length word)) as [|_]; [cbn in Hwlen; lia|].
      eexists; split; [reflexivity|]; cbn [ir_node ir_next ir_id ir_old ir_calls].
      split; [inversion Wu; subst; constructor; auto|].
      split; [exact Hp0|]. split.
      { unfold fst_rune; cbn. rewrite Ey. destruct p0; [congruence|reflexivity]. }
      split.
      * assert (E : ients pre (setData v up) =
          (pre ++ p0, with_data v (info_of up)) ::
          (pre ++ npath s, with_id nx (info_of s)) :: kents (pre ++ npath s) (nkids s)).
        { rewrite (ients_eq pre (setData _ _)). cbn [npath setData up nkids].
          now rewrite kents_cons, kents_nil, Elow, app_nil_r. }
        rewrite E, Ecut, (ients_eq pre s), Ex.
        apply (ins_mid (pre ++ p0) v fp nx [] (pre ++ npath s) (info_of s)). exact Hpk.
      * split; [discriminate|repeat constructor].
    + (* fork *)
      destruct (Nat.ltb_spec c (length word)) as [_|]; [|cbn in Hwlen; lia].
      destruct y as [|y0 y']; [congruence|].
      assert (Hm : matchChildren (x0 :: x') (nkids up) = Ok None).
      { cbn. destruct (N.eqb_spec y0 x0); [congruence|reflexivity]. }
      rewrite Hm. cbn [bind].
      eexists; split; [reflexivity|]; cbn [ir_node ir_next ir_id ir_old ir_calls].
      split.
      { unfold insertAsLeaf. constructor; cbn [nkids set_kids up app].
        - constructor; [|constructor; [easy|constructor]].
          cbn. intros [E|[]]. inversion E. congruence.
        - constructor; [split; [discriminate|auto]|].
          constructor; [|constructor]. cbn. split; [discriminate|]. constructor; constructor. }
      split; [exact Hp0|]. split.
      { unfold fst_rune; cbn. rewrite Ey. destruct p0; [congruence|reflexivity]. }
      split.
      * rewrite (ients_eq pre (insertAsLeaf _ _ _ _ _)).
        unfold insertAsLeaf. cbn [npath set_kids up nkids app].
        rewrite !kents_cons, Elow. rewrite (ients_eq _ (new_leaf _ _ _ _)).
        cbn [npath new_leaf nkids app]. rewrite !kents_nil.
        rewrite <- (app_assoc pre p0), <- Ex, (ients_eq pre s).
        change (info_of (set_kids _ _)) with (info_of up) at 1. rewrite Ecut.
        replace (kents (pre ++ npath s) (nkids s)) with
          (kents (pre ++ npath s) (nkids s) ++ []) at 1 by apply app_nil_r.
        apply (ins_fork (pre ++ word) v fp nx [] (pre ++ p0) (pre ++ npath s) (info_of s)); auto.
        -- exists x0, x'. rewrite Ex at 1. now rewrite app_assoc.
        -- now rewrite lcp_app, <- Ep0.
        -- rewrite app_nil_r. cbn [app]. rewrite <- ients_eq.
           intros k' i' Hin Hp. apply ients_prefix in Hin. destruct Hin as [z ->], Hp as [z' E].
           rewrite Ex, Ey, <- !app_assoc in E. apply app_inv_head in E. apply app_inv_head in E.
           inversion E. congruence.
      * split; [discriminate|repeat constructor].
  - (* the whole fragment matches *)
    assert (Ey0 : y = []) by (destruct y; [reflexivity|cbn in Hplen; lia]).
    rewrite Ey0, app_nil_r in Ey. cbn [bind].
    destruct (insert_full_aux f s pre x fp v nx W PL) as (ir & E & W' & Hp' & R & C).
    { intros ch w0 w Hin -> Hch. destruct (wfn_kids _ _ W Hin) as [Hnc Wc].
      destruct (IH ch (pre ++ npath s) (w0 :: w) nx) as (ir & E & W' & Hn' & Hf' & R & C); auto.
      - rewrite Hwlen in Hf. lia.
      - now apply plen_kid.
      - exists ir. rewrite <- app_assoc in R. repeat (split; [assumption|]). assumption. }
    exists ir. split.
    { destruct x as [|x0 x'].
      - destruct (Nat.ltb_spec c (length word)); [cbn in Hwlen; lia|]. exact E.
      - destruct (Nat.ltb_spec c (length word)); [|cbn in Hwlen; lia]. exact E. }
    split; [exact W'|]. split; [now rewrite Hp'|]. split; [unfold fst_rune; now rewrite Hp'|].
    split; [|exact C]. rewrite Ey in R. now rewrite <- Ex in R.
Qed.

(** a whole tree *)
Definition wf_root (n : node) : Prop := npath n = [] /\ wfn n /\ plen [] n.

Lemma insert_root_spec s word fp v nx :
  wf_root s ->
  exists ir, insertInternal (S (S (length word))) s word fp v nx = Ok ir /\
    wfn (ir_node ir) /\ npath (ir_node ir) = [] /\
    ins_rel word v fp nx (ients [] s) (ients [] (ir_node ir))
            (ir_next ir) (ir_id ir) (ir_old ir) /\
    Forall (eq (fp, ir_old ir, ir_id ir)) (ir_calls ir) /\
    (ir_calls ir = [] <-> nkids s = [] /\ word <> []).
Proof.
  intros (Hp & W & PL).
  remember (S (length word)) as f eqn:Ef. cbn [insertInternal]. rewrite Hp. cbn [length].
  change (0 =? 0) with true. cbn [andb].
  destruct (nkids s) as [|k0 ks0] eqn:Ek; [destruct word as [|w0 w]|].
  - (* empty word on an empty root *)
    cbn. eexists; split; [reflexivity|]; cbn [ir_node ir_next ir_id ir_old ir_calls].
    split; [inversion W; subst; constructor; auto|]. split; [exact Hp|].
    split; [|split; [repeat constructor|split; [discriminate|intros [_ H]; congruence]]].
    rewrite (ients_eq [] s), (ients_eq [] (setData v s)). cbn [app npath setData]. rewrite Hp.
    apply (ins_hit [] v fp nx [] (info_of s)).
  - (* first key *)
    cbn. eexists; split; [reflexivity|]; cbn [ir_node ir_next ir_id ir_old ir_calls].
    split.
    { unfold insertAsLeaf. rewrite Ek. cbn. constructor; cbn.
      - constructor; [easy|constructor].
      - constructor; [|constructor]. cbn. split; [discriminate|constructor; constructor]. }
    split; [exact Hp|]. split; [|split; [constructor|split; [split; [reflexivity|discriminate]|reflexivity]]].
    rewrite (ients_eq [] s), Ek, Hp. rewrite (ients_eq [] (insertAsLeaf _ _ _ _ _)).
    unfold insertAsLeaf. cbn [npath set_kids nkids]. rewrite Ek, Hp. cbn [app].
    rewrite kents_cons, !kents_nil, ients_eq. cbn [npath new_leaf nkids app]. rewrite kents_nil.
    change (info_of (set_kids _ _)) with (info_of s).
    apply (ins_leaf (w0 :: w) v fp nx [([], info_of s)] []).
    cbn. intros k i [E|[]]. inversion E; subst. intros H. apply prefix_len in H. cbn in H. lia.
  - cbn [length]. rewrite andb_false_r. cbn [andb].
    change (0 <? 0) with false. cbn [andb].
    destruct (insert_full_aux f s [] word fp v nx W PL) as (ir & E & W' & Hp' & R & C).
    { intros ch w0 w Hin -> Hch. destruct (wfn_kids _ _ W Hin) as [Hnc Wc].
      pose proof (plen_kid _ _ _ PL Hin) as PLc.
      destruct (insert_nonroot fp v f ch ([] ++ npath s) (w0 :: w) nx)
        as (ir & E & W' & Hn' & Hf' & R & C); auto.
      - lia.
      - exists ir. rewrite <- app_assoc in R. repeat (split; [assumption|]). assumption. }
    exists ir. split.
    { destruct word as [|w0 w]; [exact E|].
      change (0 <? length (w0 :: w)) with true. change (0 <? 0) with false.
      cbn [bind]. exact E. }
    split; [exact W'|]. split; [congruence|]. split; [|destruct C as [C1 C2]; split; [exact C2|]].
    + rewrite Hp in R. exact R.
    + split; [intros X; congruence|]. intros [X _]. congruence.
Qed.
