(** What a call does in its section depends neither on the rest of the tree nor on the numbers of nodes. *)
From Coq Require Import List NArith Bool Arith Lia.
From Verif Require Import GoStr Utf8 Node NodeWf InsertProofs MatchProofs Trie TreeOps Spec Refine Climb ApiRefine Reach Effect
  Derived Derived2 Derived3 Derived4 Derived5 Heap HeapProofs HeapWalk HeapRace HeapGet HeapGetProofs HeapSee Cvter HeapExport HeapAsk HeapLin HeapWork NoId.
Import ListNotations.
Open Scope nat_scope.

(** ** places in a tree *)
Lemma at_pos_sub p : forall n c, at_pos p n = Some c -> sub n c.
Proof.
  induction p as [|i p IH]; cbn; intros n c H; [injection H as <-; constructor|]. destruct (nth_error (nkids n) i) as [k|] eqn:E; [|discriminate].
  apply sub_kid with k; [eapply nth_error_In; eauto|auto].
Qed.
Lemma at_pos_ids p n c : at_pos p n = Some c -> In (nid c) (ids n).
Proof. intros H. apply sub_in. now apply at_pos_sub with p. Qed.
Lemma at_pos_snoc p i : forall n, at_pos (p ++ [i]) n = match at_pos p n with Some k => nth_error (nkids k) i | None => None end.
Proof.
  induction p as [|j p IH]; intros n; cbn; [now destruct (nth_error (nkids n) i)|]. destruct (nth_error (nkids n) j); auto.
Qed.
Definition alike_kids := Forall2 (fun k k' => noid k = noid k').
Lemma noid_F2 ks ks' : map noid ks = map noid ks' <-> alike_kids ks ks'.
Proof.
  split.
  - revert ks'. induction ks as [|k ks IH]; intros [|k' ks'] E; cbn in E; try discriminate; constructor; [congruence|]. apply IH. congruence.
  - induction 1; cbn; congruence.
Qed.
Lemma noid_alike n n' : noid n = noid n' -> alike_kids (nkids n) (nkids n').
Proof. intros E. apply noid_inv in E as [_ E]. now apply noid_F2. Qed.
Lemma F2_nth {A B} (P : A -> B -> Prop) l l' i x x' : Forall2 P l l' -> nth_error l i = Some x -> nth_error l' i = Some x' -> P x x'.
Proof.
  intros F. revert i. induction F as [|a b l l' H F IH]; intros [|i] A1 A2; cbn in *; try discriminate; [|eauto].
  injection A1 as ->. injection A2 as ->. exact H.
Qed.
Lemma at_pos_noid p : forall m m' c c', noid m = noid m' -> at_pos p m = Some c -> at_pos p m' = Some c' -> noid c = noid c'.
Proof.
  induction p as [|i p IH]; cbn; intros m m' c c' E A B; [congruence|].
  destruct (nth_error (nkids m) i) as [k|] eqn:X; [|discriminate]. destruct (nth_error (nkids m') i) as [k'|] eqn:Y; [|discriminate].
  apply (IH k k'); auto. apply (F2_nth _ _ _ _ _ _ (noid_alike _ _ E) X Y).
Qed.

(** ** results of searches in two trees that differ in the numbers only *)
Definition child_twin (m m' : node) (par par' : option node) (r r' : mres) : Prop :=
  m_child r = None /\ m_child r' = None \/
  exists p c c', m_child r = Some c /\ m_child r' = Some c' /\ at_pos p m = Some c /\ at_pos p m' = Some c' /\
    (p = [] /\ m_parent r = par /\ m_parent r' = par' \/
     exists q i pn pn', p = q ++ [i] /\ at_pos q m = Some pn /\ at_pos q m' = Some pn' /\ m_parent r = Some pn /\ m_parent r' = Some pn').
Definition twin_res (m m' : node) (par par' : option node) (r r' : mres) : Prop :=
  m_matched r = m_matched r' /\ m_partial r = m_partial r' /\ m_kv r = m_kv r' /\ child_twin m m' par par' r r'.
Definition twin_ex (m m' : node) (par par' : option node) (x x' : res rexit) : Prop :=
  match x, x' with
  | Ok (RReturn r), Ok (RReturn r') => twin_res m m' par par' r r'
  | Ok (RBreak a b c d e f), Ok (RBreak a' b' c' d' e' f') => a = a' /\ b = b' /\ c = c' /\ d = d' /\ e = e' /\ f = f'
  | Panic, Panic | Fuel, Fuel => True
  | _, _ => False
  end.
Lemma twin_none m m' par par' a b p p' kv : twin_res m m' par par' (MRes a b None p kv) (MRes a b None p' kv).
Proof. repeat split. left. auto. Qed.
Lemma twin_self m m' par par' a b kv : twin_res m m' par par' (MRes a b (Some m) par kv) (MRes a b (Some m') par' kv).
Proof. repeat split. right. exists [], m, m'. repeat split. left. auto. Qed.
Lemma retriever_twin rf d m m' word par par' : npath m = npath m' -> length (nkids m) = length (nkids m') -> forall ch src dst lrd kv,
  twin_ex m m' par par' (retriever rf d m word par ch src dst lrd kv) (retriever rf d m' word par' ch src dst lrd kv).
Proof.
  intros P K. induction rf as [|rf IH]; intros ch src dst lrd kv; cbn [retriever]; [exact I|]. rewrite <- P, <- K.
  destruct (lrd && (ch =? star)%N).
  { destruct (extractor _ _ _) as [[id s1] e1]. apply twin_self. }
  destruct (lrd && (ch =? colon)%N); [|apply twin_none].
  destruct (extractor (S src) _ _) as [[id s1] e1]. destruct (extractor dst _ _) as [[v d1] e2].
  destruct e1.
  - destruct e2; [apply twin_self|cbn; auto 8].
  - destruct e2; cbn [negb]; [apply twin_none|]. destruct (subscan _ _ _ _ _ _ _) as [[[s2 d2] l2] c2].
    destruct (_ && _); [cbn; auto 8|]. destruct (_ && _); [cbn; auto 8|]. apply IH.
Qed.
Lemma after_twin d m m' word par par' src mt pt kv : npath m = npath m' ->
  let '(a, b, c, p) := after_loop d m word par src mt pt in
  let '(a', b', c', p') := after_loop d m' word par' src mt pt in
  a = a' /\ b = b' /\ forall x y, twin_res m m' par par' (MRes x y c p kv) (MRes x y c' p' kv).
Proof.
  intros P. unfold after_loop. cbv zeta. rewrite <- P.
  repeat match goal with |- context [if ?x then _ else _] => destruct x end; (split; [reflexivity|split; [reflexivity|]]); intros;
    apply twin_self || apply twin_none.
Qed.
Definition twin (m m' : node) (par par' : option node) (x x' : res mres) : Prop :=
  match x, x' with
  | Ok r, Ok r' => twin_res m m' par par' r r'
  | Panic, Panic | Fuel, Fuel => True
  | _, _ => False
  end.
Lemma twin_kid m m' par par' i k k' r r' : nth_error (nkids m) i = Some k -> nth_error (nkids m') i = Some k' ->
  twin_res k k' (Some m) (Some m') r r' -> twin_res m m' par par' r r'.
Proof.
  intros A B (T1 & T2 & T3 & T). split; [exact T1|]. split; [exact T2|]. split; [exact T3|]. destruct T as [T|(p & c & c' & X1 & X2 & X3 & X4 & X5)]; [now left|right].
  exists (i :: p), c, c'. split; [exact X1|]. split; [exact X2|]. cbn [at_pos]. rewrite A, B. split; [exact X3|]. split; [exact X4|]. right.
  destruct X5 as [(-> & Y1 & Y2)|(q & j & pn & pn' & -> & Y1 & Y2 & Y3 & Y4)].
  - exists [], i, m, m'. auto 8.
  - exists (i :: q), j, pn, pn'. cbn [at_pos app]. rewrite A, B. auto 8.
Qed.
Lemma matchR_noid rf d : forall m m' word lrd par par' kv, noid m = noid m' ->
  twin m m' par par' (matchR rf d m word lrd par kv) (matchR rf d m' word lrd par' kv).
Proof.
  induction m as [m IH] using node_ind'. intros m' word lrd par par' kv E.
  pose proof (noid_path _ _ E) as P. pose proof (noid_len _ _ E) as K. pose proof (noid_alike _ _ E) as AL.
  destruct word as [|w0 w]; [destruct m, m'; apply twin_self|]. set (word := w0 :: w).
  rewrite !MatchProofs.matchR_eq by discriminate. cbv zeta. rewrite <- P.
  destruct (scan d (npath m) word 0 lrd) as [i lrd1].
  assert (TE : twin_ex m m' par par'
     (if i <? Nat.min (length (npath m)) (length word) then retriever rf d m word par (nth i (npath m) 0%N) i i lrd1 kv else Ok (RBreak i 0 lrd1 false false kv))
     (if i <? Nat.min (length (npath m)) (length word) then retriever rf d m' word par' (nth i (npath m) 0%N) i i lrd1 kv else Ok (RBreak i 0 lrd1 false false kv))).
  { destruct (i <? _); [now apply retriever_twin|cbn; auto 8]. }
  destruct (if i <? _ then retriever rf d m word par _ i i lrd1 kv else _) as [[r|src dst lrd2 mt pt kv2]| |],
    (if i <? _ then retriever rf d m' word par' _ i i lrd1 kv else _) as [[r'|src' dst' lrd2' mt' pt' kv2']| |]; cbn [bind twin_ex] in *; try tauto.
  destruct TE as (<- & <- & <- & <- & <- & <-).
  pose proof (after_twin d m m' word par par' src mt pt kv2 P) as AT.
  destruct (after_loop d m word par src mt pt) as [[[a b] c] p], (after_loop d m' word par' src mt pt) as [[[a' b'] c'] p'].
  destruct AT as (<- & <- & AT).
  destruct (_ <? length word); [|apply AT].
  destruct (nkids m) as [|k0 ks0] eqn:EK; destruct (nkids m') as [|k0' ks0'] eqn:EK'; try (cbn in K; discriminate); [apply AT|].
  rewrite <- EK, <- EK' in *. clear EK EK' K.
  set (rest := skipn _ word).
  assert (LP : forall cs cs' pre pre' last last', nkids m = pre ++ cs -> nkids m' = pre' ++ cs' -> length pre = length pre' ->
    alike_kids cs cs' -> twin_res m m' par par' last last' ->
    twin m m' par par' (kids_loop rf d rest lrd2 m cs last) (kids_loop rf d rest lrd2 m' cs' last')).
  { induction cs as [|k cs IHc]; intros cs' pre pre' last last' Em Em' LL F TL; inversion F as [|? k' ? cs2 F1 F2]; subst; cbn [kids_loop]; [exact TL|].
    pose proof TL as (_ & _ & TK & _). rewrite <- TK.
    assert (Hk : In k (nkids m)) by (rewrite Em; apply in_app_iff; right; now left).
    rewrite Forall_forall in IH. pose proof (IH k Hk k' rest lrd2 (Some m) (Some m') (m_kv last) F1) as T1.
    destruct (matchR rf d k rest lrd2 (Some m) (m_kv last)) as [r| |], (matchR rf d k' rest lrd2 (Some m') (m_kv last)) as [r'| |]; cbn [bind twin] in *; try tauto.
    assert (T2 : twin_res m m' par par' r r').
    { apply twin_kid with (length pre) k k'; auto; [rewrite Em|rewrite Em', LL]; rewrite nth_error_app2, Nat.sub_diag by lia; reflexivity. }
    pose proof T2 as (<- & <- & _). destruct (m_matched r || m_partial r); [exact T2|].
    apply IHc with (pre ++ [k]) (pre' ++ [k']); auto; rewrite <- ?app_assoc; auto. rewrite !app_length. cbn. lia. }
  apply LP with [] []; auto.
Qed.

(** ** changes at one place *)
Lemma kid_only m l k r a : NoDup (ids m) -> nkids m = l ++ k :: r -> In a (ids k) ->
  nid m <> a /\ (forall c, In c l -> ~ In a (ids c)) /\ (forall c, In c r -> ~ In a (ids c)) /\ NoDup (ids k).
Proof.
  rewrite ids_eq. intros ND E Ha. rewrite E, flat_map_app in ND. cbn [flat_map] in ND. inversion ND as [|? ? N ND']; subst.
  split; [intros Q; apply N; rewrite Q, !in_app_iff; auto|]. split; [|split].
  - intros c Hc Hi. apply (NoDup_app_disjoint _ _ ND' a); [apply in_flat_map; eauto|apply in_app_iff; auto].
  - intros c Hc Hi. apply NoDup_app_remove_l in ND'. apply (NoDup_app_disjoint _ _ ND' a Ha). apply in_flat_map. eauto.
  - now apply NoDup_app_remove_l, NoDup_app_remove_r in ND'.
Qed.
Lemma map_same {A} (f : A -> A) l : (forall x, In x l -> f x = x) -> map f l = l.
Proof. intros H. rewrite <- (map_id l) at 2. apply map_ext_in. exact H. Qed.
Lemma upd_down id f m l k r : NoDup (ids m) -> nkids m = l ++ k :: r -> In id (ids k) -> upd id f m = set_kids m (l ++ upd id f k :: r).
Proof.
  intros ND E H. destruct (kid_only m l k r id ND E H) as (N1 & N2 & N3 & _). rewrite TreeOps.upd_eq. destruct (Nat.eqb_spec (nid m) id); [tauto|].
  rewrite E, map_app. cbn [map]. rewrite !map_same; auto; intros c Hc; apply upd_notin; auto.
Qed.
Lemma upd_here f m : NoDup (ids m) -> upd (nid m) f m = set_kids (f m) (nkids m).
Proof.
  intros ND. rewrite TreeOps.upd_eq, Nat.eqb_refl. f_equal. apply map_same. intros k Hk. apply upd_notin. intros Hi.
  rewrite ids_eq in ND. inversion ND as [|? ? N _]; subst. apply N. apply in_flat_map. eauto.
Qed.
Lemma rem_down pid id m l k r : NoDup (ids m) -> nkids m = l ++ k :: r -> In pid (ids k) -> rem_child pid id m = set_kids m (l ++ rem_child pid id k :: r).
Proof.
  intros ND E H. destruct (kid_only m l k r pid ND E H) as (N1 & N2 & N3 & _). rewrite rem_child_eq. cbv zeta. destruct (Nat.eqb_spec (nid m) pid); [tauto|].
  rewrite E, map_app. cbn [map]. rewrite !map_same; auto; intros c Hc; apply rem_child_notin; auto.
Qed.
Lemma rem_here m l c r : NoDup (ids m) -> nkids m = l ++ c :: r -> rem_child (nid m) (nid c) m = set_kids m (l ++ r).
Proof.
  intros ND E. rewrite rem_child_eq, Nat.eqb_refl. cbv zeta. f_equal. rewrite map_same.
  - rewrite E, remove_id_spec; auto. intros k Hk Q. destruct (kid_only m l c r (nid c) ND E) as (_ & N2 & _); [rewrite ids_eq; now left|].
    apply (N2 k Hk). rewrite <- Q, ids_eq. now left.
  - intros k Hk. apply rem_child_notin. intros Hi. rewrite ids_eq in ND. inversion ND as [|? ? N _]; subst. apply N. apply in_flat_map. eauto.
Qed.
Lemma alike_split m m' i k k' : noid m = noid m' -> nth_error (nkids m) i = Some k -> nth_error (nkids m') i = Some k' ->
  exists l r l' r', nkids m = l ++ k :: r /\ nkids m' = l' ++ k' :: r' /\ map noid l = map noid l' /\ map noid r = map noid r' /\ noid k = noid k' /\ length l = i.
Proof.
  intros E A B. apply nth_error_split in A, B. destruct A as (l & r & A & LA), B as (l' & r' & B & LB). exists l, r, l', r'.
  split; [exact A|]. split; [exact B|]. apply noid_inv in E as [_ E]. rewrite A, B, !map_app in E. cbn [map] in E.
  assert (L : length (map noid l) = length (map noid l')) by (rewrite !map_length; lia).
  assert (X : map noid l = map noid l' /\ noid k :: map noid r = noid k' :: map noid r').
  { revert E L. generalize (map noid l) (map noid l') (noid k :: map noid r) (noid k' :: map noid r'). clear.
    induction l as [|a l IH]; intros [|b l'] x y E L; cbn in *; try discriminate; [auto|]. injection E as -> E. destruct (IH l' x y E) as [-> ->]; auto. }
  destruct X as [X1 X2]. injection X2 as X2 X3. auto.
Qed.
Lemma upd_noid f p : (forall n n', heads n n' -> heads (f n) (f n')) -> forall m m' c c', noid m = noid m' -> NoDup (ids m) -> NoDup (ids m') ->
  at_pos p m = Some c -> at_pos p m' = Some c' -> noid (upd (nid c) f m) = noid (upd (nid c') f m').
Proof.
  intros HF. induction p as [|i p IH]; cbn [at_pos]; intros m m' c c' E ND ND' A B.
  - injection A as <-. injection B as <-. rewrite !upd_here by assumption. apply noid_inv in E as [H K]. apply noid_kids; auto.
  - destruct (nth_error (nkids m) i) as [k|] eqn:X; [|discriminate]. destruct (nth_error (nkids m') i) as [k'|] eqn:Y; [|discriminate].
    destruct (alike_split m m' i k k' E X Y) as (l & r & l' & r' & E1 & E2 & E3 & E4 & E5 & _).
    pose proof (at_pos_ids _ _ _ A) as IA. pose proof (at_pos_ids _ _ _ B) as IB.
    rewrite (upd_down _ f m l k r), (upd_down _ f m' l' k' r') by assumption. apply noid_inv in E as [H _].
    apply noid_kids; [exact H|]. rewrite !map_app. cbn [map]. rewrite E3, E4. do 2 f_equal.
    apply IH; auto; [apply (kid_only m l k r (nid c))|apply (kid_only m' l' k' r' (nid c'))]; auto.
Qed.
Lemma rem_noid q i : forall m m' pn pn' c c', noid m = noid m' -> NoDup (ids m) -> NoDup (ids m') ->
  at_pos q m = Some pn -> at_pos q m' = Some pn' -> nth_error (nkids pn) i = Some c -> nth_error (nkids pn') i = Some c' ->
  noid (rem_child (nid pn) (nid c) m) = noid (rem_child (nid pn') (nid c') m').
Proof.
  induction q as [|j q IH]; cbn [at_pos]; intros m m' pn pn' c c' E ND ND' A B X Y.
  - injection A as <-. injection B as <-. destruct (alike_split m m' i c c' E X Y) as (l & r & l' & r' & E1 & E2 & E3 & E4 & E5 & _).
    rewrite (rem_here m l c r), (rem_here m' l' c' r') by assumption. apply noid_inv in E as [H _]. apply noid_kids; [exact H|].
    rewrite !map_app. congruence.
  - destruct (nth_error (nkids m) j) as [k|] eqn:Xk; [|discriminate]. destruct (nth_error (nkids m') j) as [k'|] eqn:Yk; [|discriminate].
    destruct (alike_split m m' j k k' E Xk Yk) as (l & r & l' & r' & E1 & E2 & E3 & E4 & E5 & _).
    pose proof (at_pos_ids _ _ _ A) as IA. pose proof (at_pos_ids _ _ _ B) as IB.
    rewrite (rem_down _ _ m l k r), (rem_down _ _ m' l' k' r') by assumption. apply noid_inv in E as [H _].
    apply noid_kids; [exact H|]. rewrite !map_app. cbn [map]. rewrite E3, E4. do 2 f_equal.
    apply IH; auto; [apply (kid_only m l k r (nid pn))|apply (kid_only m' l' k' r' (nid pn'))]; auto.
Qed.
(** and around *)
Lemma upd_plug id f C m : NoDup (ids (plug C m)) -> In id (ids m) -> upd id f (plug C m) = plug C (upd id f m).
Proof.
  intros ND H. induction C as [|n l C IH r]; [reflexivity|]. cbn [plug] in *.
  rewrite (upd_down id f (set_kids n (l ++ plug C m :: r)) l (plug C m) r ND eq_refl) by (apply ids_plug; auto).
  rewrite IH; [reflexivity|]. apply (kid_only _ l (plug C m) r (nid (plug C m)) ND eq_refl). rewrite ids_eq. now left.
Qed.
Lemma rem_plug pid id C m : NoDup (ids (plug C m)) -> In pid (ids m) -> rem_child pid id (plug C m) = plug C (rem_child pid id m).
Proof.
  intros ND H. induction C as [|n l C IH r]; [reflexivity|]. cbn [plug] in *.
  rewrite (rem_down pid id (set_kids n (l ++ plug C m :: r)) l (plug C m) r ND eq_refl) by (apply ids_plug; auto).
  rewrite IH; [reflexivity|]. apply (kid_only _ l (plug C m) r (nid (plug C m)) ND eq_refl). rewrite ids_eq. now left.
Qed.
Lemma nodup_hole C m : NoDup (ids (plug C m)) -> NoDup (ids m).
Proof.
  induction C as [|n l C IH r]; auto. cbn [plug]. intros ND. apply IH.
  apply (kid_only _ l (plug C m) r (nid (plug C m)) ND eq_refl). rewrite ids_eq. now left.
Qed.

(** ** a search goes down to the section *)
(** what is used of a result *)
Definition norm (r : mres) : mres := if m_matched r || m_partial r then r else MRes false false None None (m_kv r).
(** no sibling on the way down begins with a pattern *)
Fixpoint cold (d : rune) (lrd : bool) (C : ctx) : Prop :=
  match C with
  | Hole => True
  | Down n l C r =>
      (forall k, In k (l ++ r) -> lrd_end d lrd (npath n) && ((nth 0 (npath k) 0 =? colon) || (nth 0 (npath k) 0 =? star))%N = false) /\
      cold d (lrd_end d lrd (npath n)) C
  end.
(** siblings on both sides begin with other runes *)
Fixpoint cok2 (C : ctx) (p : list rune) : Prop :=
  match C with
  | Hole => True
  | Down n l C r => cpath C p <> [] /\ (forall k, In k (l ++ r) -> npath k <> [] /\ hd_error (npath k) <> hd_error (cpath C p)) /\ cok2 C p
  end.
Lemma wfn_cok2 C m : wfn (plug C m) -> cok2 C (npath m).
Proof.
  induction C as [|n l C IH r]; cbn [plug cok2]; auto. intros W. pose proof (wfn_forall _ W) as F. cbn [nkids set_kids] in F.
  rewrite Forall_forall in F. rewrite <- !plug_path. assert (HP : In (plug C m) (l ++ plug C m :: r)) by (apply in_app_iff; right; now left).
  split; [now apply F|]. split; [|apply IH; now apply F]. intros k Hk. split; [apply F; rewrite in_app_iff in *; cbn; tauto|].
  pose proof (wfn_nodup _ W) as ND. cbn [nkids set_kids] in ND. rewrite map_app in ND. cbn [map] in ND. intros Q.
  apply NoDup_remove_2 in ND. apply ND. rewrite <- map_app. unfold fst_rune at 1. rewrite <- Q. now apply (in_map fst_rune).
Qed.
Fixpoint last_spine (C : ctx) (m : node) (par : option node) : option node :=
  match C with Hole => par | Down n l C' r => last_spine C' m (Some (plug (Down n l C' r) m)) end.
Lemma sibling_miss rf d k w word lrd par kv : npath k <> [] -> hd_error (npath k) <> Some w ->
  lrd && ((nth 0 (npath k) 0 =? colon) || (nth 0 (npath k) 0 =? star))%N = false ->
  matchR (S rf) d k (w :: word) lrd par kv = Ok (MRes false false None None kv).
Proof.
  intros NE HD CO. rewrite MatchProofs.matchR_eq by discriminate. cbv zeta. destruct (npath k) as [|c p] eqn:E; [congruence|].
  cbn [scan]. destruct (N.eqb_spec c w) as [->|N]; [cbn in HD; congruence|]. cbn [length Nat.min Nat.ltb Nat.leb nth].
  rewrite retriever_plain; [reflexivity|exact CO].
Qed.
Lemma loop_app rf d rest lrd s a b : forall last, kids_loop rf d rest lrd s (a ++ b) last =
  (fix go cs last := match cs with [] => kids_loop rf d rest lrd s b last | c :: cs => do r <- matchR rf d c rest lrd (Some s) (m_kv last);
     if m_matched r || m_partial r then Ok r else go cs r end) a last.
Proof. induction a as [|c a IH]; intros last; cbn; [reflexivity|]. destruct (matchR _ _ c _ _ _ _); cbn; auto. destruct (_ || _); auto. Qed.
Lemma loop_miss rf d w word lrd s a b : (forall k, In k a -> npath k <> [] /\ hd_error (npath k) <> Some w) ->
  (forall k, In k a -> lrd && ((nth 0 (npath k) 0 =? colon) || (nth 0 (npath k) 0 =? star))%N = false) ->
  forall last, exists last', kids_loop (S rf) d (w :: word) lrd s (a ++ b) last = kids_loop (S rf) d (w :: word) lrd s b last' /\
    m_kv last' = m_kv last /\ (a = [] /\ last' = last \/ last' = MRes false false None None (m_kv last)).
Proof.
  intros H1 H2. induction a as [|c a IH]; intros last; [exists last; auto|]. cbn [app kids_loop].
  rewrite sibling_miss; [|apply H1; now left|apply H1; now left|apply H2; now left]. cbn [bind m_matched m_partial orb].
  destruct (IH (fun k Hk => H1 k (or_intror Hk)) (fun k Hk => H2 k (or_intror Hk)) (MRes false false None None (m_kv last))) as (last' & E & K & S).
  exists last'. split; [exact E|]. split; [exact K|]. right. destruct S as [[_ ->]|S]; [reflexivity|exact S].
Qed.
Definition nres (x : res mres) : res mres := do r <- x; Ok (norm r).
Lemma enters C p v : cpath C p <> [] -> (p <> [] -> hd_error v = hd_error p) -> exists w word, cpre C ++ v = w :: word /\ hd_error (cpath C p) = Some w.
Proof.
  destruct C as [|n l C r]; cbn [cpath cpre app]; intros NE HV.
  - rewrite <- (HV NE). destruct p as [|a p]; [congruence|]. destruct v as [|b v]; [now specialize (HV NE)|]. exists b, v. auto.
  - destruct (npath n) as [|a q]; [congruence|]. exists a, ((q ++ cpre C) ++ v). auto.
Qed.
Lemma ctx_match rf d C : forall m v lrd par kv, cok2 C (npath m) -> cold d lrd C -> (npath m <> [] -> hd_error v = hd_error (npath m)) ->
  nres (matchR (S rf) d (plug C m) (cpre C ++ v) lrd par kv) =
  nres (matchR (S rf) d m v (lrd_end d lrd (cpre C)) (last_spine C m par) kv).
Proof.
  induction C as [|n l C IH r]; intros m v lrd par kv OK CO HV; [reflexivity|].
  destruct OK as (NE & SIB & OK). destruct CO as (COK & CO).
  destruct (enters C (npath m) v NE HV) as (w & word & EW & HW). specialize (IH m v (lrd_end d lrd (npath n)) (Some (plug (Down n l C r) m)) kv OK CO HV).
  cbn [cpre]. rewrite <- app_assoc. rewrite lrd_end_app. cbn [last_spine]. rewrite <- IH. clear IH.
  rewrite EW. set (big := plug (Down n l C r) m). assert (BP : npath big = npath n) by reflexivity. assert (BK : nkids big = l ++ plug C m :: r) by reflexivity.
  rewrite MatchProofs.matchR_eq by (destruct (npath n); discriminate). cbv zeta. rewrite BP, scan_spec.
  assert (LC : lcp (npath n ++ w :: word) (npath n) = npath n).
  { clear. induction (npath n) as [|a p IH]; [now destruct (w :: word)|]. cbn. rewrite N.eqb_refl. now rewrite IH. }
  rewrite LC. assert (ML : Nat.min (length (npath n)) (length (npath n ++ w :: word)) = length (npath n)) by (rewrite app_length; lia).
  rewrite ML. cbn [plus]. rewrite Nat.ltb_irrefl. cbn [bind].
  destruct (after_loop d big _ par _ false false) as [[[a b] c] p].
  replace (length (npath n) <? length (npath n ++ w :: word)) with true by (symmetry; apply Nat.ltb_lt; rewrite app_length; cbn; lia).
  rewrite BK. clear BK. destruct (l ++ plug C m :: r) as [|k0 ks0] eqn:EK; [destruct l; discriminate|]. rewrite <- EK. clear EK k0 ks0.
  cbn [Nat.eqb]. rewrite skip_app.
  destruct (loop_miss rf d w word (lrd_end d lrd (npath n)) big l (plug C m :: r)) with (last := MRes a b c p kv) as (last' & -> & KV & _).
  { intros k Hk. rewrite <- HW. apply SIB. apply in_app_iff. auto. }
  { intros k Hk. apply COK. apply in_app_iff. auto. }
  cbn [kids_loop]. rewrite KV. cbn [m_kv].
  destruct (matchR (S rf) d (plug C m) (w :: word) _ (Some big) kv) as [x| |]; cbn [bind]; auto.
  destruct (m_matched x || m_partial x) eqn:X; [reflexivity|].
  destruct (loop_miss rf d w word (lrd_end d lrd (npath n)) big r []) with (last := x) as (last2 & E2 & _ & S2).
  { intros k Hk. rewrite <- HW. apply SIB. apply in_app_iff. auto. }
  { intros k Hk. apply COK. apply in_app_iff. auto. }
  rewrite app_nil_r in E2. rewrite E2. cbn [kids_loop nres bind]. f_equal. destruct S2 as [[_ ->]| ->]; [reflexivity|].
  unfold norm at 2. rewrite X. reflexivity.
Qed.

(** ** what a call reads and writes, given the result of its search *)
Definition sr (r : mres) : Trie.sres :=
  if m_matched r || m_partial r then Trie.SRes (m_child r) (m_parent r) (m_partial r) (m_kv r) else Trie.SRes None None false (m_kv r).
Lemma sr_norm r : sr (norm r) = sr r.
Proof. unfold sr, norm. destruct (m_matched r || m_partial r) eqn:E; [now rewrite E|reflexivity]. Qed.
Lemma nres_sr x y r : nres x = nres y -> x = Ok r -> exists r', y = Ok r' /\ sr r' = sr r.
Proof.
  intros E ->. destruct y as [r'| |]; cbn in E; try discriminate. exists r'. split; [reflexivity|].
  rewrite <- (sr_norm r), <- (sr_norm r'). congruence.
Qed.
Definition fast (d : rune) (s : Trie.sres) : option node :=
  match s_node s, s_partial s with
  | Some n, false => if isBranch n then if endsWith n d then Some n else None else Some n
  | _, _ => None
  end.
Definition attr_of (x : attrib) (o : option node) : reply :=
  match x, o with
  | Desc, Some n => Is (GStr (ndesc n)) true
  | Comm, Some n => Is (GStr (ncmt n)) true
  | Tag, Some n => Is (ntag n) true
  | Tag, None => Is GNil false
  | _, None => Is (GStr []) false
  end.
Definition gone (s : Trie.sres) : option (nat * nat) :=
  match s_node s, s_partial s, s_parent s with
  | Some n, false, Some p => if fst (remove_id (nid n) (nkids p)) then Some (nid p, nid n) else None
  | _, _, _ => None
  end.
Definition some {A} (o : option A) : bool := match o with Some _ => true | None => false end.
Definition answer (it : item) (s : Trie.sres) : reply :=
  match it with
  | Op (DoGet h p) => Value (query_of (hdelim h) s)
  | Op (DoHas h p) => Yes (s_found s)
  | Op (DoHasPart h p) => Yes (match s_node s with Some n => if s_partial s then has_prefix (full h p) (npathS n) else true | None => s_partial s end)
  | Op (DoAttr x h p) => attr_of x (fast (hdelim h) s)
  | Op (DoTag _ _ _) | Op (DoComment _ _ _ _) => Yes (some (s_node s))
  | Rm _ _ => Yes (some (gone s))
  | Rg _ _ => match gone s, s_node s with Some _, Some n => Is (ndata n) true | _, _ => Is GNil false end
  | Ex order h q => Map (ask_of order h q s)
  | Op _ | Mk _ _ _ _ | Wr _ _ _ => Stored
  end.
Definition effect (it : item) (s : Trie.sres) (m : node) : node :=
  match it with
  | Op (DoTag _ _ v) => match s_node s with Some n => upd (nid n) (setTag v) m | None => m end
  | Op (DoComment _ _ desc cmt) => match s_node s with Some n => upd (nid n) (setComment desc cmt) m | None => m end
  | Rm _ _ | Rg _ _ => match gone s with Some (p, c) => rem_child p c m | None => m end
  | _ => m
  end.
Definition looks (it : item) : bool := negb (sets it).
Lemma search_sr rf h t w : hmode h <> ModeUp -> search rf h t w = do r <- matchR rf (hdelim h) (root t) (runes w) false None []; Ok (sr r).
Proof.
  intros M. unfold search, probe. cbv zeta. destruct (matchR rf (hdelim h) (root t) (runes w) false None []) as [r| |]; cbn [bind]; auto.
  unfold sr. destruct (_ || _); [reflexivity|]. destruct (hmode h); congruence.
Qed.
Ltac deep x := destruct x as [?| |]; cbn [bind]; try (split; [intros; firstorder discriminate|intros (? & ? & _); discriminate]).
Lemma does_look rf t it t1 x : looks it = true -> hmode (hdl_of it) <> ModeUp -> exports_part it ->
  (does_i rf t it t1 x <-> exists r, matchR rf (hdelim (hdl_of it)) (root t) (runes (key_of it)) false None [] = Ok r /\
     t1 = Tr (effect it (sr r) (root t)) (next t) /\ x = answer it (sr r)).
Proof.
  assert (TE : Tr (root t) (next t) = t) by now destruct t.
  destruct it as [o|h p|h p v mark|h p|order h q|w h p]; [destruct o| | | | |]; cbn [looks sets negb andb hdl_of key_of does_i does effect answer]; try discriminate; intros _ M EP.
  - unfold Query. rewrite search_sr by exact M. destruct (matchR _ _ _ _ _ _ _) as [r| |]; cbn [bind].
    + split; [intros (-> & q & E & ->); injection E as <-; exists r; auto|intros (r' & E & -> & ->); injection E as <-; split; auto; eauto].
    + split; [intros (_ & q & E & _); discriminate|intros (r & E & _); discriminate].
    + split; [intros (_ & q & E & _); discriminate|intros (r & E & _); discriminate].
  - unfold Has. rewrite search_sr by exact M. destruct (matchR _ _ _ _ _ _ _) as [r| |]; cbn [bind].
    + split; [intros (-> & q & E & ->); injection E as <-; exists r; auto|intros (r' & E & -> & ->); injection E as <-; split; auto; eauto].
    + split; [intros (_ & q & E & _); discriminate|intros (r & E & _); discriminate].
    + split; [intros (_ & q & E & _); discriminate|intros (r & E & _); discriminate].
  - unfold HasPart. cbv zeta. rewrite search_sr by exact M. destruct (matchR _ _ _ _ _ _ _) as [r| |]; cbn [bind].
    + destruct (s_node (sr r)) as [n|] eqn:En.
      * split; [intros (-> & q & E & ->); injection E as <-; exists r; rewrite En; auto|intros (r' & E & -> & ->); injection E as <-; rewrite En; split; auto; eauto].
      * split; [intros (-> & q & E & ->); injection E as <-; exists r; rewrite En; auto|intros (r' & E & -> & ->); injection E as <-; rewrite En; split; auto; eauto].
    + split; [intros (_ & q & E & _); discriminate|intros (r & E & _); discriminate].
    + split; [intros (_ & q & E & _); discriminate|intros (r & E & _); discriminate].
  - unfold GetDesc, GetTag, GetComment, getNodeFast. rewrite search_sr by exact M. destruct (matchR _ _ _ _ _ _ _) as [r| |]; cbn [bind].
    + change (match s_node (sr r) with
         | Some n => if s_partial (sr r) then None else if isBranch n then if endsWith n (hdelim h) then Some n else None else Some n
         | None => None end) with (fast (hdelim h) (sr r)).
      split.
      * intros H. exists r. destruct x0; destruct H as (-> & v & b & E & ->); destruct (fast (hdelim h) (sr r)); injection E as <- <-; auto.
      * intros (r' & E & -> & ->). injection E as <-. destruct x0; (split; [exact TE|]); destruct (fast (hdelim h) (sr r)); cbn; eauto.
    + split; [intros H; destruct x0; destruct H as (_ & v & b & E & _); discriminate|intros (r & E & _); discriminate].
    + split; [intros H; destruct x0; destruct H as (_ & v & b & E & _); discriminate|intros (r & E & _); discriminate].
  - unfold SetTag. rewrite search_sr by exact M. destruct (matchR _ _ _ _ _ _ _) as [r| |]; cbn [bind].
    + destruct (s_node (sr r)) as [n|] eqn:En.
      * split; [intros (q & E & ->); injection E as <- <-; exists r; rewrite En; auto|intros (r' & E & -> & ->); injection E as <-; rewrite En; eauto].
      * split; [intros (q & E & ->); injection E as <- <-; exists r; rewrite En; auto|intros (r' & E & -> & ->); injection E as <-; rewrite En, TE; eauto].
    + split; [intros (q & E & _); discriminate|intros (r & E & _); discriminate].
    + split; [intros (q & E & _); discriminate|intros (r & E & _); discriminate].
  - unfold SetComment. rewrite search_sr by exact M. destruct (matchR _ _ _ _ _ _ _) as [r| |]; cbn [bind].
    + destruct (s_node (sr r)) as [n|] eqn:En.
      * split; [intros (q & E & ->); injection E as <- <-; exists r; rewrite En; auto|intros (r' & E & -> & ->); injection E as <-; rewrite En; eauto].
      * split; [intros (q & E & ->); injection E as <- <-; exists r; rewrite En; auto|intros (r' & E & -> & ->); injection E as <-; rewrite En, TE; eauto].
    + split; [intros (q & E & _); discriminate|intros (r & E & _); discriminate].
    + split; [intros (q & E & _); discriminate|intros (r & E & _); discriminate].
  - unfold Remove, RemoveEx. rewrite search_sr by exact M. destruct (matchR _ _ _ _ _ _ _) as [r| |]; cbn [bind].
    + assert (X : forall y, Ok y = Ok r -> y = r) by (intros; congruence).
      unfold gone. destruct (s_node (sr r)) as [n|] eqn:En; [destruct (s_partial (sr r)) eqn:Ep; [|destruct (s_parent (sr r)) as [pn|] eqn:Epn; [destruct (fst (remove_id (nid n) (nkids pn))) eqn:Er|]]|]; cbn [bind].
      all: split; [intros (q & E & ->); injection E as <- <-; exists r; rewrite ?En, ?Ep, ?Epn, ?Er; auto|
        intros (r' & E & -> & ->); injection E as <-; rewrite ?En, ?Ep, ?Epn, ?Er, ?TE; eauto].
    + split; [intros (q & E & _); discriminate|intros (r & E & _); discriminate].
    + split; [intros (q & E & _); discriminate|intros (r & E & _); discriminate].
  - unfold RemoveEx. rewrite search_sr by exact M. destruct (matchR _ _ _ _ _ _ _) as [r| |]; cbn [bind].
    + unfold gone. destruct (s_node (sr r)) as [n|] eqn:En; [destruct (s_partial (sr r)) eqn:Ep; [|destruct (s_parent (sr r)) as [pn|] eqn:Epn; [destruct (fst (remove_id (nid n) (nkids pn))) eqn:Er|]]|]; cbn [bind].
      all: split; [intros (a & b & c & E & ->); injection E as <- <- <- <-; exists r; rewrite ?En, ?Ep, ?Epn, ?Er; auto|
        intros (r' & E & -> & ->); injection E as <-; rewrite ?En, ?Ep, ?Epn, ?Er, ?TE; eauto 8].
    + split; [intros (a & b & c & E & _); discriminate|intros (r & E & _); discriminate].
    + split; [intros (a & b & c & E & _); discriminate|intros (r & E & _); discriminate].
  - destruct EP as [RP _]. rewrite TE, RP.
    assert (X : forall r, matchR rf (hdelim h) (root t) (runes (full h (ask_path q))) false None [] = Ok r -> ask_on order rf h t q = ask_of order h q (sr r)).
    { intros r E. apply ask_search; [exact RP|]. rewrite search_sr by exact M. now rewrite E. }
    rewrite search_sr by exact M. split.
    + intros (-> & [Y|(s & E)] & ->); [discriminate|]. destruct (matchR _ _ _ _ _ _ _) as [r| |]; try discriminate. exists r. rewrite (X r eq_refl). auto.
    + intros (r & E & -> & ->). rewrite E. split; [reflexivity|]. split; [right; eexists; reflexivity|]. now rewrite (X r E).
Qed.
Definition set_val (it : item) : gval := match it with Op (DoSet _ _ v) | Op (DoSetEx _ _ v) | Mk _ _ v _ => v | Wr w _ _ => w_val w | _ => GNil end.
Definition set_reply (it : item) (old : gval) : reply := match it with Op (DoSetEx _ _ _) | Mk _ _ _ _ => Old old | Wr w _ _ => w_reply w old | _ => Stored end.
(** what the methods make of the node *)
Definition n_act (n : node) (x : act) : node :=
  match x with
  | AData v => mkNode (nid n) (npath n) (npathS n) (nkids n) v (ndesc n) (ncmt n) (ntag n) (ntype n)
  | ADesc s => mkNode (nid n) (npath n) (npathS n) (nkids n) (ndata n) s (ncmt n) (ntag n) (ntype n)
  | ACmt s => mkNode (nid n) (npath n) (npathS n) (nkids n) (ndata n) (ndesc n) s (ntag n) (ntype n)
  | ATag v => mkNode (nid n) (npath n) (npathS n) (nkids n) (ndata n) (ndesc n) (ncmt n) v (ntype n)
  | AType f => set_type n (f (ntype n))
  end.
Definition w_node (w : wcall) (old : gval) : node -> node :=
  match w with
  | WUpdate f | WWith _ f => fun n => fold_left (fun n o => n_nodeop o n) (f old) n
  | WNode _ _ dc => apply_dc dc
  | WEmpty => setEmpty
  end.
Lemma op_acts o n : n_nodeop o n = fold_left n_act (acts_of o) n.
Proof. destruct o as [v|x y|v| |[|]| |]; reflexivity. Qed.
Lemma w_node_acts w old n : w_node w old n = fold_left n_act (w_acts w old) n.
Proof.
  assert (X : forall l n, fold_left (fun n o => n_nodeop o n) l n = fold_left n_act (flat_map acts_of l) n).
  { induction l as [|o l IH]; intros m; [reflexivity|]. cbn [fold_left flat_map]. now rewrite fold_left_app, IH, op_acts. }
  destruct w as [f|v tag dc| |v f]; cbn [w_node w_acts]; auto. destruct dc as [|a [|b [|c dc]]]; reflexivity.
Qed.
Lemma acts_keep l : forall n, let n' := fold_left n_act l n in npath n' = npath n /\ nid n' = nid n /\ nkids n' = nkids n.
Proof.
  induction l as [|x l IH]; intros n; [auto|]. cbn [fold_left]. destruct (IH (n_act n x)) as (A & B & K). cbv zeta. rewrite A, B, K. now destruct x.
Qed.
Lemma acts_heads l : forall n n', heads n n' -> heads (fold_left n_act l n) (fold_left n_act l n').
Proof.
  induction l as [|x l IH]; intros n n' H; [exact H|]. cbn [fold_left]. apply IH. destruct H as (H1 & H2 & H3 & H4 & H5 & H6 & H7).
  destruct x; repeat split; cbn; congruence.
Qed.
(** what is then done to the node: the mark of the store, the function given to Update, or the node's methods *)
Definition mark_of (it : item) (old : gval) : option (node -> node) :=
  match it with Mk _ _ _ true => Some (setModified true) | Op (DoUpdate _ _ g) => Some (setData (g old)) | Wr w _ _ => Some (w_node w old) | _ => None end.
(** the tree after the insertion, with the mark *)
Definition marked (it : item) (ir : ires) : node :=
  match mark_of it (ir_old ir) with Some f => upd (ir_id ir) f (ir_node ir) | None => ir_node ir end.
Lemma mark_of_ok it old f : mark_of it old = Some f ->
  (forall n, npath (f n) = npath n /\ nid (f n) = nid n /\ nkids (f n) = nkids n) /\ forall n n', heads n n' -> heads (f n) (f n').
Proof.
  destruct it as [o|h p|h p v [|]|h p|order h q|w h p]; [destruct o| | | | | |]; cbn [mark_of]; try discriminate; intros E; injection E as <-.
  - split; [intros n; auto|]. intros n n' (H1 & H2 & H3 & H4 & H5 & H6 & H7). repeat split; cbn; congruence.
  - split; [intros n; auto|]. intros n n' (H1 & H2 & H3 & H4 & H5 & H6 & H7). repeat split; cbn; congruence.
  - split; [intros n; rewrite w_node_acts; apply acts_keep|]. intros n n' H. rewrite !w_node_acts. now apply acts_heads.
Qed.
Lemma does_set rf t it t1 x : sets it = true ->
  (does_i rf t it t1 x <-> exists ir, insertInternal (S (S (length (runes (key_of it))))) (root t) (runes (key_of it)) (key_of it) (set_val it) (next t) = Ok ir /\
     t1 = Tr (marked it ir) (ir_next ir) /\ x = set_reply it (ir_old ir)).
Proof.
  destruct it as [o|h p|h p v mark|h p|order h q|w h p]; [destruct o| | | | |]; cbn [sets]; try discriminate; intros _; unfold marked; cbn [does_i does key_of set_val set_reply mark_of].
  - unfold Set_, insert_root. cbv zeta. destruct (insertInternal _ _ _ _ _ _) as [ir| |]; cbn [bind].
    + split; [intros ((id & old & E) & ->); injection E as <- <- <-; eauto|intros (ir' & E & -> & ->); injection E as <-; split; eauto].
    + split; [intros ((id & old & E) & _); discriminate|intros (ir' & E & _); discriminate].
    + split; [intros ((id & old & E) & _); discriminate|intros (ir' & E & _); discriminate].
  - unfold SetEx, insert_root. cbv zeta. destruct (insertInternal _ _ _ _ _ _) as [ir| |]; cbn [bind].
    + split; [intros (old & calls & E & ->); injection E as <- <- <-; eauto|intros (ir' & E & -> & ->); injection E as <-; eauto].
    + split; [intros (id & old & E & _); discriminate|intros (ir' & E & _); discriminate].
    + split; [intros (id & old & E & _); discriminate|intros (ir' & E & _); discriminate].
  - unfold Update, insert_root. destruct (insertInternal _ _ _ _ _ _) as [ir| |]; cbn [bind root next].
    + split; [intros (E & ->); injection E as <-; eauto|intros (ir' & E & -> & ->); injection E as <-; auto].
    + split; [intros (E & _); discriminate|intros (ir' & E & _); discriminate].
    + split; [intros (E & _); discriminate|intros (ir' & E & _); discriminate].
  - unfold Set_, insert_root. cbv zeta. destruct (insertInternal _ _ _ _ _ _) as [ir| |]; cbn [bind].
    + split; [intros (t2 & id & old & E & -> & ->); injection E as <- <- <-; exists ir; destruct mark; auto|intros (ir' & E & -> & ->); injection E as <-].
      exists (Tr (ir_node ir) (ir_next ir)), (ir_id ir), (ir_old ir). destruct mark; auto.
    + split; [intros (t2 & id & old & E & _); discriminate|intros (ir' & E & _); discriminate].
    + split; [intros (t2 & id & old & E & _); discriminate|intros (ir' & E & _); discriminate].
  - destruct w as [f|v tag dc| |v f]; cbn [w_key w_val w_reply w_node].
    + unfold Update, insert_root. destruct (insertInternal _ _ _ _ _ _) as [ir| |]; cbn [bind root next].
      * split; [intros (E & ->); injection E as <-; eauto|intros (ir' & E & -> & ->); injection E as <-; auto].
      * split; [intros (E & _); discriminate|intros (ir' & E & _); discriminate].
      * split; [intros (E & _); discriminate|intros (ir' & E & _); discriminate].
    + unfold SetNode, insert_root. destruct (insertInternal _ _ _ _ _ _) as [ir| |]; cbn [bind root next].
      * split; [intros (id & old & E & ->); injection E as <- <- <-; eauto|intros (ir' & E & -> & ->); injection E as <-; eauto].
      * split; [intros (id & old & E & _); discriminate|intros (ir' & E & _); discriminate].
      * split; [intros (id & old & E & _); discriminate|intros (ir' & E & _); discriminate].
    + unfold SetEmpty, insert_root. destruct (insertInternal _ _ _ _ _ _) as [ir| |]; cbn [bind root next].
      * split; [intros (old & E & ->); injection E as <- <-; eauto|intros (ir' & E & -> & ->); injection E as <-; eauto].
      * split; [intros (old & E & _); discriminate|intros (ir' & E & _); discriminate].
      * split; [intros (old & E & _); discriminate|intros (ir' & E & _); discriminate].
    + unfold Set_, insert_root. cbv zeta. destruct (insertInternal _ _ _ _ _ _) as [ir| |]; cbn [bind].
      * split; [intros (t2 & id & old & E & -> & ->); injection E as <- <- <-; exists ir; auto|intros (ir' & E & -> & ->); injection E as <-].
        exists (Tr (ir_node ir) (ir_next ir)), (ir_id ir), (ir_old ir). auto.
      * split; [intros (t2 & id & old & E & _); discriminate|intros (ir' & E & _); discriminate].
      * split; [intros (t2 & id & old & E & _); discriminate|intros (ir' & E & _); discriminate].
Qed.

(** ** a call inside a section *)
Definition sdoes (rf cl : nat) (pre : key_t) (par : option node) (m : node) (nx : nat) (it : item) (m1 : node) (nx1 : nat) (x : reply) : Prop :=
  let w := skipn (length pre) (runes (key_of it)) in
  if sets it then exists ir, insertInternal (S (S (length (runes (key_of it)))) - cl) m w (key_of it) (set_val it) nx = Ok ir /\
    m1 = marked it ir /\ nx1 = ir_next ir /\ x = set_reply it (ir_old ir)
  else exists r, matchR rf (hdelim (hdl_of it)) m w (lrd_end (hdelim (hdl_of it)) false pre) par [] = Ok r /\
    m1 = effect it (sr r) m /\ nx1 = nx /\ x = answer it (sr r).
(** a call that stays in the section at [m] in [C] *)
(** [w] leads to the node with the fragment [p] or below it; calls that neither set nor remove may also stop inside the fragment *)
Definition reach (it : item) (p w : list rune) : Prop :=
  (exists rest, w = p ++ rest /\ (removes it = true -> rest <> [])) \/ (sets it = false /\ removes it = false /\ w <> [] /\ exists z, p = w ++ z).
Lemma reach_hd it p w : reach it p w -> p <> [] -> hd_error w = hd_error p.
Proof. intros [(rest & -> & _)|(_ & _ & NW & z & ->)] NE; [now destruct p|now destruct w]. Qed.
Lemma reach_sets it p w : reach it p w -> sets it = true -> exists rest, w = p ++ rest.
Proof. intros [(rest & -> & _)|(ST & _)] X; [eauto|congruence]. Qed.
Lemma reach_rm it p w : reach it p w -> removes it = true -> exists rest, rest <> [] /\ w = p ++ rest.
Proof. intros [(rest & -> & RM)|(_ & ST & _)] X; [eauto|congruence]. Qed.
Definition within (C : ctx) (p : list rune) (it : item) : Prop :=
  (exists w, runes (key_of it) = cpre C ++ w /\ reach it p w) /\
  (sets it = false -> hmode (hdl_of it) <> ModeUp /\ cold (hdelim (hdl_of it)) false C /\ exports_part it).

(** where the result of a search is *)
Lemma found_in rf d m w lrd par kv r c : matchR rf d m w lrd par kv = Ok r -> m_child r = Some c -> exists p, at_pos p m = Some c.
Proof.
  intros E H. pose proof (matchR_noid rf d m m w lrd par par kv eq_refl) as T. rewrite E in T. cbn [twin] in T.
  destruct T as (_ & _ & _ & [[T _]|(p & c1 & c2 & T1 & _ & T3 & _)]); [congruence|]. exists p. congruence.
Qed.
Lemma matchR_below rf d m rest lrd par kv r : NoDup (ids m) -> rest <> [] -> matchR rf d m (npath m ++ rest) lrd par kv = Ok r ->
  m_matched r || m_partial r = true -> m_partial r = false -> forall c, m_child r = Some c -> c <> m.
Proof.
  intros ND NE E M P c Hc ->.
  rewrite MatchProofs.matchR_eq in E by (destruct (npath m); [exact NE|discriminate]). cbv zeta in E. rewrite scan_spec in E.
  assert (LC : lcp (npath m ++ rest) (npath m) = npath m).
  { clear. induction (npath m) as [|a p IH]; [now destruct rest|]. cbn. rewrite N.eqb_refl. now rewrite IH. }
  rewrite LC in E. assert (LR : 0 < length rest) by (destruct rest; [congruence|cbn; lia]).
  assert (ML : Nat.min (length (npath m)) (length (npath m ++ rest)) = length (npath m)) by (rewrite app_length; lia).
  rewrite ML in E. cbn [plus] in E. rewrite Nat.ltb_irrefl in E. cbn [bind] in E.
  destruct (after_loop d m _ par _ false false) as [[[a b] c0] p0].
  replace (length (npath m) <? length (npath m ++ rest)) with true in E by (symmetry; apply Nat.ltb_lt; rewrite app_length; lia).
  destruct (nkids m) as [|k0 ks] eqn:EK; [injection E as <-; discriminate|].
  rewrite <- EK in E. cbn [Nat.eqb] in E. rewrite skip_app in E. assert (KN : nkids m <> []) by congruence. clear EK k0 ks.
  assert (LP : forall cs last, incl cs (nkids m) -> kids_loop rf d rest (lrd_end d lrd (npath m)) m cs last = Ok r ->
    cs = [] \/ exists k, In k cs /\ exists kv', matchR rf d k rest (lrd_end d lrd (npath m)) (Some m) kv' = Ok r).
  { induction cs as [|k cs IHc]; intros last I; cbn [kids_loop]; intros E'; [auto|].
    destruct (matchR rf d k rest _ (Some m) (m_kv last)) as [r1| |] eqn:E1; try discriminate. cbn [bind] in E'. right.
    destruct (m_matched r1 || m_partial r1); [injection E' as ->; exists k; split; [now left|eauto]|].
    destruct cs as [|k' cs]; [injection E' as ->; exists k; split; [now left|eauto]|].
    destruct (IHc r1) as [X|(k2 & Hk & kv' & Y)]; [intros y Hy; apply I; now right|exact E'|discriminate|].
    exists k2. split; [now right|eauto]. }
  destruct (LP (nkids m) (MRes a b c0 p0 kv)) as [X|(k & Hk & kv' & X)]; [apply incl_refl|exact E|congruence|].
  destruct (found_in _ _ _ _ _ _ _ _ _ X Hc) as [p Hp]. apply at_pos_ids in Hp. rewrite ids_eq in ND. inversion ND as [|? ? N _]; subst.
  apply N. apply in_flat_map. eauto.
Qed.

Lemma sr_child r c : s_node (sr r) = Some c -> m_child r = Some c /\ m_matched r || m_partial r = true /\ s_partial (sr r) = m_partial r /\ s_parent (sr r) = m_parent r /\ s_kv (sr r) = m_kv r.
Proof. unfold sr. destruct (m_matched r || m_partial r); cbn; [auto|discriminate]. Qed.
Lemma found_kid pn i c : NoDup (ids pn) -> nth_error (nkids pn) i = Some c -> fst (remove_id (nid c) (nkids pn)) = true.
Proof.
  intros ND H. apply nth_error_split in H. destruct H as (l & r & E & _). rewrite E, remove_id_spec; auto.
  intros k Hk Q. destruct (kid_only pn l c r (nid c) ND E) as (_ & N2 & _); [rewrite ids_eq; now left|].
  apply (N2 k Hk). rewrite <- Q, ids_eq. now left.
Qed.
Lemma at_pos_nodup p : forall m c, NoDup (ids m) -> at_pos p m = Some c -> NoDup (ids c).
Proof.
  induction p as [|i p IH]; cbn [at_pos]; intros m c ND H; [congruence|]. destruct (nth_error (nkids m) i) as [k|] eqn:E; [|discriminate].
  apply IH with k; auto. apply nth_error_split in E. destruct E as (l & r & E & _).
  apply (kid_only m l k r (nid k) ND E). rewrite ids_eq. now left.
Qed.
(** the node and its parent that Remove takes *)
Lemma gone_spot rf d m rest lrd par r a b : NoDup (ids m) -> rest <> [] -> matchR rf d m (npath m ++ rest) lrd par [] = Ok r ->
  gone (sr r) = Some (a, b) -> exists q i pn c, at_pos q m = Some pn /\ nth_error (nkids pn) i = Some c /\ a = nid pn /\ b = nid c.
Proof.
  intros ND NE E G. unfold gone in G. destruct (s_node (sr r)) as [c|] eqn:Ec; [|discriminate].
  destruct (sr_child r c Ec) as (X1 & X2 & X3 & X4 & _). rewrite X3, X4 in G. destruct (m_partial r) eqn:Ep; [discriminate|].
  destruct (m_parent r) as [pn|] eqn:Epn; [|discriminate]. destruct (fst (remove_id (nid c) (nkids pn))); [|discriminate]. injection G as <- <-.
  pose proof (matchR_noid rf d m m (npath m ++ rest) lrd par par [] eq_refl) as T. rewrite E in T. cbn [twin] in T.
  destruct T as (_ & _ & _ & [[T _]|(p & c1 & c2 & T1 & _ & T3 & _ & T5)]); [congruence|]. assert (c1 = c) as -> by congruence.
  destruct T5 as [(-> & _)|(q & i & p1 & p2 & -> & Y1 & _ & Y3 & _)].
  - exfalso. cbn in T3. injection T3 as <-. revert X1. exact (fun H => matchR_below rf d m rest lrd par [] r ND NE E ltac:(now rewrite Ep) Ep m H eq_refl).
  - assert (p1 = pn) as -> by congruence. rewrite at_pos_snoc, Y1 in T3. exists q, i, pn, c. auto.
Qed.
(** a call that only looks answers the same in trees that differ in the numbers only, and leaves trees that do *)
Lemma look_twin rf it m m' v lrd par par' r : noid m = noid m' -> NoDup (ids m) -> NoDup (ids m') ->
  (removes it = true -> exists rest, rest <> [] /\ v = npath m ++ rest) -> exports_part it ->
  matchR rf (hdelim (hdl_of it)) m v lrd par [] = Ok r ->
  exists r', matchR rf (hdelim (hdl_of it)) m' v lrd par' [] = Ok r' /\ answer it (sr r') = answer it (sr r) /\
    noid (effect it (sr r) m) = noid (effect it (sr r') m').
Proof.
  intros NI ND ND' RM EX E. pose proof (noid_path _ _ NI) as P.
  pose proof (matchR_noid rf (hdelim (hdl_of it)) m m' v lrd par par' [] NI) as T. rewrite E in T.
  destruct (matchR rf _ m' _ lrd par' []) as [r'| |] eqn:E'; cbn [twin] in T; try tauto.
  exists r'. split; [reflexivity|]. destruct T as (T1 & T2 & T3 & T4).
  assert (Q : (s_node (sr r) = None /\ s_node (sr r') = None \/ exists p c c', s_node (sr r) = Some c /\ s_node (sr r') = Some c' /\
     at_pos p m = Some c /\ at_pos p m' = Some c') /\ s_partial (sr r) = s_partial (sr r') /\ s_kv (sr r) = s_kv (sr r')).
  { unfold sr. rewrite <- T1, <- T2, <- T3. destruct (m_matched r || m_partial r); cbn [s_node s_partial s_kv]; [|auto].
    split; [|auto]. destruct T4 as [T4|(p & c & c' & A1 & A2 & A3 & A4 & _)]; [auto|right; exists p, c, c'; auto]. }
  destruct Q as (Q1 & Q2 & Q3).
  assert (UF : forall f, (forall n n', heads n n' -> heads (f n) (f n')) ->
    noid (match s_node (sr r) with Some n => upd (nid n) f m | None => m end) = noid (match s_node (sr r') with Some n => upd (nid n) f m' | None => m' end)).
  { intros f HF. destruct Q1 as [[-> ->]|(p & c & c' & -> & -> & A1 & A2)]; [exact NI|]. now apply upd_noid with p. }
  assert (SO : forall A (f : node -> A) (z : A), (forall n n', noid n = noid n' -> f n = f n') ->
    match s_node (sr r') with Some n => f n | None => z end = match s_node (sr r) with Some n => f n | None => z end).
  { intros A f z HF. destruct Q1 as [[-> ->]|(p & c & c' & -> & -> & A1 & A2)]; [reflexivity|]. apply HF. symmetry. now apply (at_pos_noid p m m'). }
  assert (HEADS : forall n n', noid n = noid n' -> heads n n' /\ nkids n = [] <-> heads n n' /\ nkids n' = [] /\ noid n = noid n').
  { intros n n' H. apply noid_len in H as L. split; [intros [X Y]|intros [X [Y _]]]; rewrite Y in L; (split; [exact X|]).
    - split; [|exact H]. destruct (nkids n'); [reflexivity|discriminate].
    - destruct (nkids n); [reflexivity|discriminate]. }
  clear HEADS.
  assert (GG : removes it = true -> some (gone (sr r')) = some (gone (sr r)) /\
     noid (match gone (sr r) with Some (p, c) => rem_child p c m | None => m end) = noid (match gone (sr r') with Some (p, c) => rem_child p c m' | None => m' end) /\
     match gone (sr r'), s_node (sr r') with Some _, Some n => Is (ndata n) true | _, _ => Is GNil false end =
     match gone (sr r), s_node (sr r) with Some _, Some n => Is (ndata n) true | _, _ => Is GNil false end).
  { intros R. destruct (RM R) as (rest & NR & ->). clear Q1 Q2 Q3 UF SO.
    unfold gone, sr. rewrite <- T1, <- T2. destruct (m_matched r || m_partial r) eqn:MP; cbn [s_node s_partial s_parent]; [|auto].
    destruct T4 as [[-> ->]|(p & c & c' & A1 & A2 & A3 & A4 & A5)]; [auto|]. rewrite A1, A2. destruct (m_partial r) eqn:PA; [auto|].
    destruct A5 as [(-> & _)|(q & i & pn & pn' & -> & Y1 & Y2 & Y3 & Y4)].
    - exfalso. cbn in A3. injection A3 as <-. exact (matchR_below rf _ m rest lrd par [] r ND NR E ltac:(now rewrite PA) PA m A1 eq_refl).
    - rewrite Y3, Y4. rewrite at_pos_snoc, Y1 in A3. rewrite at_pos_snoc, Y2 in A4.
      rewrite (found_kid pn i c (at_pos_nodup q m pn ND Y1) A3), (found_kid pn' i c' (at_pos_nodup q m' pn' ND' Y2) A4). split; [reflexivity|]. split; [now apply rem_noid with q i|].
      assert (CC : noid c = noid c') by (apply (at_pos_noid (q ++ [i]) m m'); auto; rewrite at_pos_snoc; [now rewrite Y1|now rewrite Y2]).
      apply noid_inv in CC as [(_ & _ & -> & _) _]. reflexivity. }
  assert (BR : forall n n', noid n = noid n' -> isBranch n = isBranch n').
  { intros n n' H. apply noid_inv in H as [(H1 & H2 & H3 & H4 & H5 & H6 & H7) _]. unfold isBranch. now rewrite H7. }
  assert (EW : forall n n' d, noid n = noid n' -> endsWith n d = endsWith n' d).
  { intros n n' d H. apply noid_inv in H as [(H1 & H2 & H3 & H4 & H5 & H6 & H7) _]. unfold endsWith. now rewrite H1. }
  destruct it as [o|h p|h p u mark|h p|order h q|w h p]; [destruct o| | | | |]; cbn [answer effect removes] in *; try (split; [|exact NI]).
  - f_equal. unfold query_of. rewrite <- Q2, <- Q3. apply SO. intros n n' H. destruct (s_partial (sr r)); [reflexivity|].
    rewrite (BR n n'), (EW n n') by exact H. apply noid_inv in H as [(H1 & H2 & H3 & H4 & H5 & H6 & H7) _]. unfold hasData. now rewrite H3, H7.
  - f_equal. unfold s_found. rewrite <- Q2. now apply SO.
  - f_equal. rewrite <- Q2. apply SO. intros n n' H. apply noid_inv in H as [(H1 & H2 & _) _]. now rewrite H2.
  - unfold fast. rewrite <- Q2.
    transitivity (match s_node (sr r') with Some n => attr_of x (if s_partial (sr r) then None else if isBranch n then if endsWith n (hdelim h) then Some n else None else Some n) | None => attr_of x None end);
      [destruct (s_node (sr r')); [destruct (s_partial (sr r))|]; reflexivity|].
    transitivity (match s_node (sr r) with Some n => attr_of x (if s_partial (sr r) then None else if isBranch n then if endsWith n (hdelim h) then Some n else None else Some n) | None => attr_of x None end);
      [|destruct (s_node (sr r)); [destruct (s_partial (sr r))|]; reflexivity].
    apply SO. intros n n' H. rewrite (BR n n'), (EW n n') by exact H. apply noid_inv in H as [(H1 & H2 & H3 & H4 & H5 & H6 & H7) _].
    destruct (s_partial (sr r)); [reflexivity|]. destruct (isBranch n'); [destruct (endsWith n' (hdelim h))|]; destruct x; cbn; congruence.
  - reflexivity.
  - split; [f_equal; unfold some; now apply SO|]. apply UF. intros n n' (H1 & H2 & H3 & H4 & H5 & H6 & H7). repeat split; cbn; auto.
  - reflexivity.
  - split; [f_equal; unfold some; now apply SO|]. apply UF. intros n n' (H1 & H2 & H3 & H4 & H5 & H6 & H7). repeat split; cbn; auto.
  - reflexivity.
  - destruct (GG eq_refl) as (G1 & G2 & _). split; [now f_equal|exact G2].
  - reflexivity.
  - destruct (GG eq_refl) as (_ & G2 & G3). split; [exact G3|exact G2].
  - f_equal. destruct EX as [_ BL]. apply ask_noid; [exact BL|congruence|].
    destruct Q1 as [[A1 A2]|(p & c & c' & A1 & A2 & A3 & A4)]; [auto|]. right. exists c', c. split; [exact A2|]. split; [exact A1|]. symmetry. now apply (at_pos_noid p m m').
  - reflexivity.
Qed.
Lemma look_plug rf it C m v lrd par r : NoDup (ids (plug C m)) -> (removes it = true -> exists rest, rest <> [] /\ v = npath m ++ rest) ->
  matchR rf (hdelim (hdl_of it)) m v lrd par [] = Ok r -> effect it (sr r) (plug C m) = plug C (effect it (sr r) m).
Proof.
  intros ND RM E. pose proof (nodup_hole _ _ ND) as NM.
  assert (U : forall f, match s_node (sr r) with Some n => upd (nid n) f (plug C m) | None => plug C m end =
    plug C (match s_node (sr r) with Some n => upd (nid n) f m | None => m end)).
  { intros f. destruct (s_node (sr r)) as [c|] eqn:Ec; [|reflexivity]. apply sr_child in Ec as (Ec & _). destruct (found_in _ _ _ _ _ _ _ _ _ E Ec) as [p Hp].
    apply upd_plug; auto. now apply at_pos_ids with p. }
  destruct it as [o|h p|h p u mark|h p|order h q|w h p]; [destruct o| | | | |]; cbn [effect]; auto.
  all: destruct (gone (sr r)) as [[a b]|] eqn:G; [|reflexivity].
  all: destruct (RM eq_refl) as (rest & NR & ->); destruct (gone_spot _ _ _ _ _ _ _ _ _ NM NR E G) as (q & i & pn & c & A & _ & -> & _); apply rem_plug; auto; now apply at_pos_ids with q.
Qed.

(** ** depth *)
Definition kdepth (ks : list node) : nat := fold_right (fun k a => Nat.max (depth k) a) 0 ks.
Lemma depth_eq n : depth n = S (kdepth (nkids n)).
Proof. now destruct n. Qed.
Lemma kdepth_app a b : kdepth (a ++ b) = Nat.max (kdepth a) (kdepth b).
Proof. unfold kdepth. induction a as [|k a IH]; cbn [app fold_right]; [reflexivity|]. rewrite IH. lia. Qed.
Lemma cpl_max w p : cpl_len w p < length p -> cpl_len w p < length w -> hd_error (skipn (cpl_len w p) p) <> hd_error (skipn (cpl_len w p) w).
Proof.
  revert p. induction w as [|a w IH]; intros [|b p]; cbn; try lia. destruct (N.eqb_spec a b) as [->|N]; cbn; [|congruence].
  intros A B. apply IH; lia.
Qed.
Lemma ins_depth f : forall n word fp v nx ir, insertInternal f n word fp v nx = Ok ir -> depth (ir_node ir) <= S (depth n).
Proof.
  induction f as [|f IH]; intros n word fp v nx ir; [discriminate|]. cbn [insertInternal].
  assert (LEAF : forall b w x, depth (insertAsLeaf b w fp v x) <= Nat.max (depth b) 2).
  { intros b w x. rewrite !depth_eq. cbn [insertAsLeaf nkids set_kids]. rewrite kdepth_app. cbn. lia. }
  assert (D1 : 1 <= depth n) by (rewrite depth_eq; lia).
  destruct (_ && _); [intros E; injection E as <-; cbn [ir_node]; specialize (LEAF n word nx); lia|].
  set (cpl := if (0 <? length (npath n)) && (0 <? length word) then cpl_len word (npath n) else 0).
  destruct (Nat.ltb_spec cpl (length (npath n))) as [LT|GE].
  - unfold split. destruct (_ <=? _); [|discriminate]. cbn [bind].
    assert (DB : depth (mkNode (nid n) (firstn cpl (npath n)) (firstn (length (npathS n) - (length (npath n) - cpl)) (npathS n))
       [mkNode nx (skipn cpl (npath n)) (npathS n) (nkids n) (ndata n) (ndesc n) (ncmt n) (ntag n) (ntype n)] GNil [] [] GNil NTBranch) = S (depth n)).
    { rewrite (depth_eq n), depth_eq. cbn [nkids kdepth fold_right]. rewrite depth_eq. cbn [nkids]. lia. }
    set (base := mkNode (nid n) _ _ _ _ _ _ _ _) in *.
    destruct (Nat.ltb_spec cpl (length word)) as [LW|GW].
    + set (word' := if 0 <? cpl then skipn cpl word else word).
      assert (HD : hd_error (skipn cpl (npath n)) <> hd_error word').
      { assert (W : word' = skipn cpl word) by (unfold word'; destruct (Nat.ltb_spec 0 cpl); [reflexivity|]; replace cpl with 0 by lia; reflexivity).
        rewrite W. unfold cpl in *. destruct (Nat.ltb_spec 0 (length (npath n))); [|lia]. destruct (Nat.ltb_spec 0 (length word)); [|cbn in *; lia].
        cbn [andb] in *. now apply cpl_max. }
      unfold base at 1. cbn [nkids matchChildren npath]. destruct (skipn cpl (npath n)) as [|c z]; [discriminate|]. destruct word' as [|w word']; [discriminate|].
      destruct (N.eqb_spec c w) as [->|_]; [cbn in HD; congruence|]. cbn [bind]. intros E. injection E as <-. cbn [ir_node].
      specialize (LEAF base (w :: word') (S nx)). lia.
    + intros E. injection E as <-. cbn [ir_node]. rewrite depth_eq. cbn [setData nkids]. rewrite depth_eq in DB. lia.
  - cbn [bind]. destruct (cpl <? length word).
    + set (word' := if 0 <? cpl then skipn cpl word else word). destruct (matchChildren word' (nkids n)) as [[[[l c] r]|]| |] eqn:M; try discriminate; cbn [bind].
      * destruct (insertInternal f c word' fp v nx) as [ir0| |] eqn:E0; try discriminate. cbn [bind]. intros E. injection E as <-. cbn [ir_node].
        apply IH in E0. rewrite !depth_eq. cbn [nkids set_kids].
        assert (EK : nkids n = l ++ c :: r).
        { revert M. generalize (nkids n) l. clear. induction l as [|k ks IH]; intros l; cbn [matchChildren]; [discriminate|].
          destruct (npath k); [discriminate|]. destruct word'; [discriminate|]. destruct (_ =? _)%N; [intros E; injection E as <- <- <-; reflexivity|].
          destruct (matchChildren _ ks) as [[[[l' c'] r']|]| |] eqn:M; try discriminate. cbn [bind]. intros E. injection E as <- <- <-.
          cbn. f_equal. now apply IH. }
        rewrite EK, !kdepth_app. cbn [kdepth fold_right]. fold (kdepth r). lia.
      * intros E. injection E as <-. cbn [ir_node]. specialize (LEAF n word' nx). lia.
    + intros E. injection E as <-. cbn [ir_node]. rewrite !depth_eq. cbn [setData nkids]. lia.
Qed.
Lemma kdepth_le ks ks' : Forall2 (fun k k' => depth k' <= depth k) ks ks' -> kdepth ks' <= kdepth ks.
Proof. unfold kdepth. induction 1; cbn [fold_right]; lia. Qed.
Lemma map_F2 {A} (P : A -> A -> Prop) f l : Forall (fun x => P x (f x)) l -> Forall2 P l (map f l).
Proof. induction 1; constructor; auto. Qed.
Lemma upd_depth id f n : depth (upd id f n) <= depth n.
Proof.
  induction n as [n IH] using node_ind'. rewrite TreeOps.upd_eq.
  assert (M : kdepth (map (upd id f) (nkids n)) <= kdepth (nkids n)) by (apply kdepth_le, map_F2; exact IH).
  rewrite !depth_eq. cbn [nkids set_kids]. lia.
Qed.
Lemma rem_depth p c n : depth (rem_child p c n) <= depth n.
Proof.
  induction n as [n IH] using node_ind'. rewrite rem_child_eq. cbv zeta. rewrite !depth_eq.
  assert (M : kdepth (map (rem_child p c) (nkids n)) <= kdepth (nkids n)) by (apply kdepth_le, map_F2; exact IH).
  assert (R : forall l, kdepth (snd (remove_id c l)) <= kdepth l).
  { unfold kdepth. induction l as [|k l IHl]; cbn [remove_id snd fold_right]; [lia|]. destruct (nid k =? c); cbn [snd]; [lia|]. destruct (remove_id c l); cbn [snd fold_right] in *. lia. }
  destruct (nid n =? p); cbn [nkids set_kids]; [specialize (R (map (rem_child p c) (nkids n)))|]; lia.
Qed.
Lemma eff_depth it s m : depth (effect it s m) <= depth m.
Proof.
  destruct it as [o|h p|h p v mark|h p|order h q|w h p]; [destruct o| | | | |]; cbn [effect]; auto; try (destruct (s_node s); [apply upd_depth|auto]).
  all: destruct (gone s) as [[a b]|]; [apply rem_depth|auto].
Qed.
Lemma plug_depth C m : clen C + depth m <= depth (plug C m).
Proof.
  induction C as [|n l C IH r]; [cbn; lia|]. cbn [plug clen].
  assert (depth (plug C m) < depth (set_kids n (l ++ plug C m :: r))) by (apply depth_kid; cbn; apply in_app_iff; right; now left). lia.
Qed.

(** ** one call, in the whole tree and in the section *)
Lemma ids_wf t : wf_tr t -> NoDup (ids (root t)).
Proof. intros [_ [I _]]. exact I. Qed.
Lemma ins_at f n word fp v nx ir : insertInternal f n word fp v nx = Ok ir -> exists p c, at_pos p (ir_node ir) = Some c /\ nid c = ir_id ir.
Proof.
  intros E. pose proof (ins_noid f n n word fp v nx nx eq_refl) as I. rewrite E in I. destruct I as (_ & _ & p & c & c' & A & B & _). eauto.
Qed.
Lemma ins_nodup C m rest key v nx ir : wf_tr (Tr (plug C m) nx) -> runes key = cpre C ++ npath m ++ rest ->
  insertInternal (S (S (length (runes key))) - clen C) m (npath m ++ rest) key v nx = Ok ir -> NoDup (ids (plug C (ir_node ir))).
Proof.
  intros W EK E. assert (WN : wfn (plug C m)) by apply W. pose proof (wfn_cok _ _ WN) as OK. pose proof (clen_le _ _ OK) as CL.
  pose proof (ctx_insert C m (S (S (length (runes key))) - clen C) rest key v nx OK) as CI. rewrite E in CI. destruct CI as (ir' & E1 & E2 & _).
  replace (clen C + (S (S (length (runes key))) - clen C)) with (S (S (length (runes key)))) in E1 by (rewrite EK, app_assoc, app_length; lia).
  rewrite <- EK in E1. destruct (insert_root_wf (Tr (plug C m) nx) key v W) as (t' & ir2 & E3 & W' & ->). unfold insert_root in E3. cbn [root next] in E3. rewrite E1 in E3.
  cbn [bind] in E3. assert (ir2 = ir') as -> by congruence. rewrite <- E2. apply (ids_wf _ W').
Qed.
Lemma mark_plug C m rest it nx ir : wf_tr (Tr (plug C m) nx) -> runes (key_of it) = cpre C ++ npath m ++ rest ->
  insertInternal (S (S (length (runes (key_of it)))) - clen C) m (npath m ++ rest) (key_of it) (set_val it) nx = Ok ir ->
  forall ir', ir_node ir' = plug C (ir_node ir) -> ir_id ir' = ir_id ir -> ir_old ir' = ir_old ir -> marked it ir' = plug C (marked it ir).
Proof.
  intros W EK E ir' A B O. pose proof (ins_nodup _ _ _ _ _ _ _ W EK E) as ND. destruct (ins_at _ _ _ _ _ _ _ E) as (p & c & P1 & P2).
  unfold marked. rewrite O. destruct (mark_of it (ir_old ir)) as [f|]; auto. rewrite A, B. apply upd_plug; [exact ND|]. rewrite <- P2. now apply at_pos_ids with p.
Qed.
Lemma mark_noid it n ir ir' p c c' : ir_old ir' = ir_old ir -> noid n = noid (ir_node ir) -> noid n = noid (ir_node ir') -> NoDup (ids (ir_node ir)) -> NoDup (ids (ir_node ir')) ->
  at_pos p (ir_node ir) = Some c -> nid c = ir_id ir -> at_pos p (ir_node ir') = Some c' -> nid c' = ir_id ir' -> noid (marked it ir) = noid (marked it ir').
Proof.
  intros O N N' ND ND' A B A' B'. assert (E : noid (ir_node ir) = noid (ir_node ir')) by congruence.
  unfold marked. rewrite O. destruct (mark_of it (ir_old ir)) as [f|] eqn:F; auto. rewrite <- B, <- B'. apply upd_noid with p; auto.
  exact (proj2 (mark_of_ok _ _ _ F)).
Qed.
Lemma step_sdoes rf C m nx it t1 x : wf_tr (Tr (plug C m) nx) -> within C (npath m) it ->
  (does_i (S rf) (Tr (plug C m) nx) it t1 x <->
   exists m1 nx1, t1 = Tr (plug C m1) nx1 /\ sdoes (S rf) (clen C) (cpre C) (last_spine C m None) m nx it m1 nx1 x).
Proof.
  intros WT ((w & EK & RE) & LK). pose proof (ids_wf _ WT) as ND. cbn [root] in ND.
  assert (WN : wfn (plug C m)) by apply WT. unfold sdoes. rewrite EK, skip_app. destruct (sets it) eqn:ST.
  - rewrite does_set by exact ST. cbn [root next]. destruct (reach_sets _ _ _ RE ST) as [rest ->]. rewrite EK.
    pose proof (wfn_cok _ _ WN) as OK. pose proof (clen_le _ _ OK) as CL.
    set (len := S (S (length (cpre C ++ npath m ++ rest)))).
    assert (FU : clen C + (len - clen C) = len) by (unfold len; rewrite app_assoc, app_length; lia).
    pose proof (ctx_insert C m (len - clen C) rest (key_of it) (set_val it) nx OK) as CI. rewrite FU in CI.
    destruct (insertInternal (len - clen C) m (npath m ++ rest) (key_of it) (set_val it) nx) as [ir| |] eqn:EI.
    + destruct CI as (ir' & E1 & E2 & E3 & E4 & E5). rewrite E1.
      assert (MP : marked it ir' = plug C (marked it ir)) by (apply (mark_plug C m rest it nx ir); auto; rewrite EK; exact EI). split.
      * intros (ir2 & E & -> & ->). injection E as <-. exists (marked it ir), (ir_next ir). rewrite MP, E3, E4. split; [reflexivity|]. exists ir. auto.
      * intros (m1 & nx1 & -> & ir2 & E & -> & -> & ->). injection E as <-. exists ir'. rewrite MP, E3, E4. auto.
    + rewrite CI. split; [intros (ir2 & E & _); discriminate|intros (m1 & nx1 & _ & ir2 & E & _); discriminate].
    + rewrite CI. split; [intros (ir2 & E & _); discriminate|intros (m1 & nx1 & _ & ir2 & E & _); discriminate].
  - destruct (LK eq_refl) as (MU & CO & EX). rewrite does_look; [|unfold looks; now rewrite ST|exact MU|exact EX]. cbn [root next]. rewrite EK.
    pose proof (ctx_match rf (hdelim (hdl_of it)) C m w false None [] (wfn_cok2 _ _ WN) CO (reach_hd _ _ _ RE)) as CM. pose proof (reach_rm _ _ _ RE) as RM. split.
    + intros (r & E & -> & ->). destruct (nres_sr _ _ _ CM E) as (r' & E' & S). rewrite <- S.
      exists (effect it (sr r') m), nx. split; [|exists r'; auto]. f_equal. eapply look_plug; eauto.
    + intros (m1 & nx1 & -> & r & E & -> & -> & ->). destruct (nres_sr _ _ _ (eq_sym CM) E) as (r' & E' & S). exists r'. split; [exact E'|]. rewrite S.
      split; [|reflexivity]. f_equal. symmetry. eapply look_plug; eauto.
Qed.
Lemma sdoes_noid rf C C' m m' par par' nx nx' it m1 nx1 x : noid m = noid m' -> wf_tr (Tr (plug C m) nx) -> wf_tr (Tr (plug C' m') nx') -> within C (npath m) it ->
  clen C' = clen C -> cpre C' = cpre C ->
  sdoes rf (clen C) (cpre C) par m nx it m1 nx1 x ->
  exists m1' nx1', sdoes rf (clen C') (cpre C') par' m' nx' it m1' nx1' x /\ noid m1 = noid m1'.
Proof.
  intros NI W W' ((w & EK & RE) & LK) EC EP. pose proof (nodup_hole _ _ (ids_wf _ W)) as ND. pose proof (nodup_hole _ _ (ids_wf _ W')) as ND'. unfold sdoes. rewrite EC, EP, EK, skip_app. destruct (sets it) eqn:ST.
  - destruct (reach_sets _ _ _ RE ST) as [rest ->]. intros (ir & E & -> & -> & ->). pose proof (ins_noid (S (S (length (cpre C ++ npath m ++ rest))) - clen C) m m' (npath m ++ rest) (key_of it) (set_val it) nx nx' NI) as I.
    rewrite E in I. destruct (insertInternal _ m' _ _ _ _) as [ir'| |] eqn:E'; cbn in I; try tauto. destruct I as (I1 & I2 & p & c & c' & P1 & P2 & P3 & P4).
    exists (marked it ir'), (ir_next ir'). split; [exists ir'; rewrite I2; auto|]. apply (mark_noid it (ir_node ir) ir ir' p c c'); auto.
    + apply (nodup_hole C), (ins_nodup C m rest (key_of it) (set_val it) nx ir W EK). rewrite EK. exact E.
    + apply (nodup_hole C'), (ins_nodup C' m' rest (key_of it) (set_val it) nx' ir' W'); [rewrite EP, <- (noid_path _ _ NI); exact EK|].
      rewrite EC, EK, <- (noid_path _ _ NI). exact E'.
  - intros (r & E & -> & -> & ->). destruct (look_twin rf it m m' w _ par par' r NI ND ND' (reach_rm _ _ _ RE) (proj2 (proj2 (LK eq_refl))) E) as (r' & E' & A & B).
    exists (effect it (sr r') m'), nx'. split; [|exact B]. exists r'. rewrite A. auto.
Qed.
Lemma ins_nid f n word fp v nx ir : insertInternal f n word fp v nx = Ok ir -> nid (ir_node ir) = nid n.
Proof.
  destruct f as [|f]; [discriminate|]. cbn [insertInternal]. destruct (_ && _); [intros E; injection E as <-; reflexivity|].
  set (cpl := if (0 <? length (npath n)) && (0 <? length word) then cpl_len word (npath n) else 0).
  assert (ST : forall b nx1, (if cpl <? length (npath n) then do b <- split n cpl nx; Ok (b, S nx) else Ok (n, nx)) = Ok (b, nx1) -> nid b = nid n).
  { intros b nx1. destruct (cpl <? length (npath n)); [|congruence]. unfold split. destruct (_ <=? _); [|discriminate]. cbn [bind]. intros E. injection E as <- <-. reflexivity. }
  destruct (if cpl <? length (npath n) then do b <- split n cpl nx; Ok (b, S nx) else Ok (n, nx)) as [[b nx1]| |]; try discriminate. cbn [bind]. specialize (ST _ _ eq_refl).
  destruct (cpl <? length word); [|intros E; injection E as <-; exact ST].
  destruct (matchChildren _ _) as [[[[l c] r]|]| |]; try discriminate; cbn [bind]; [|intros E; injection E as <-; exact ST].
  destruct (insertInternal f c _ fp v nx1) as [ir0| |]; try discriminate. cbn [bind]. intros E; injection E as <-; exact ST.
Qed.
Lemma eff_head it s m : npath (effect it s m) = npath m /\ nid (effect it s m) = nid m.
Proof.
  assert (U : forall id f, (forall n, npath (f n) = npath n) -> (forall n, nid (f n) = nid n) -> npath (upd id f m) = npath m /\ nid (upd id f m) = nid m).
  { intros id f H1 H2. rewrite TreeOps.upd_eq. destruct (nid m =? id); cbn; auto. }
  destruct it as [o|h p|h p v mark|h p|order h q|w h p]; [destruct o| | | | |]; cbn [effect]; auto; try (destruct (s_node s); [apply U; intros; reflexivity|auto]).
  all: destruct (gone s) as [[a b]|]; auto; now rewrite rem_child_npath, rem_child_nid.
Qed.
Lemma sdoes_head rf C m par nx it m1 nx1 x : within C (npath m) it -> sdoes rf (clen C) (cpre C) par m nx it m1 nx1 x ->
  npath m1 = npath m /\ nid m1 = nid m /\ depth m1 <= S (depth m).
Proof.
  intros ((w & EK & RE) & _). unfold sdoes. rewrite EK, skip_app. destruct (sets it) eqn:ST.
  - destruct (reach_sets _ _ _ RE ST) as [rest ->]. intros (ir & E & -> & _). assert (X : npath (marked it ir) = npath (ir_node ir) /\ nid (marked it ir) = nid (ir_node ir) /\ depth (marked it ir) <= depth (ir_node ir)).
    { unfold marked. destruct (mark_of it (ir_old ir)) as [f|] eqn:F; auto. destruct (proj1 (mark_of_ok _ _ _ F) (ir_node ir)) as (F1 & F2 & _).
      split; [|split; [|apply upd_depth]]; rewrite TreeOps.upd_eq; destruct (_ =? _); cbn [set_kids npath nid]; auto. }
    destruct X as (X1 & X2 & X3). split; [rewrite X1; now apply ins_path in E|]. split; [rewrite X2; now apply ins_nid in E|apply ins_depth in E; lia].
  - intros (r & _ & -> & _). destruct (eff_head it (sr r) m) as [H1 H2]. split; [exact H1|]. split; [exact H2|]. pose proof (eff_depth it (sr r) m). lia.
Qed.
Lemma does_wf rf t it t1 x : wf_tr t -> does_i rf t it t1 x -> wf_tr t1.
Proof.
  intros W. destruct it as [o|h p|h p v mark|h p|order h q|w h p]; [destruct o| | | | |]; cbn [does_i does] in *; try discriminate; try (intros (-> & _); exact W).
  - destruct x0; intros (-> & _); exact W.
  - intros ((id & old & E) & _). apply (step_wf rf h t (OSet p v) t1 (ROld old) W). cbn. now rewrite E.
  - intros (b & E & _). apply (step_wf rf h t (OSetTag p v) t1 (RBool b) W). cbn. now rewrite E.
  - intros (old & calls & E & _). apply (step_wf rf h t (OSetEx p v) t1 (ROld old) W). cbn. now rewrite E.
  - intros (b & E & _). apply (step_wf rf h t (OSetComment p desc cmt) t1 (RBool b) W). cbn. now rewrite E.
  - intros (E & _). apply (step_wf rf h t (OUpdate p (fun old => [NSetData (g old)])) t1 RUnit W). cbn. unfold Update in *. destruct (insert_root _ _ _) as [[t2 ir]| |]; cbn [bind] in *; try discriminate. injection E as <-. reflexivity.
  - intros (b & E & _). apply (step_wf rf h t (ORemove p) t1 (RBool b) W). cbn. now rewrite E.
  - intros (t2 & id & old & E & -> & _). destruct mark.
    + apply (step_wf rf h t (OSetWith p v (fun _ => [NSetModified true])) _ (ROld old) W). cbn. rewrite E. reflexivity.
    + apply (step_wf rf h t (OSet p v) t2 (ROld old) W). cbn. now rewrite E.
  - intros (n & q & b & E & _). apply (step_wf rf h t (ORemove p) t1 (RBool b) W). cbn. unfold Remove. now rewrite E.
  - destruct w as [f|v tag dc| |v f].
    + intros (E & _). apply (step_wf rf h t (OUpdate p f) t1 RUnit W). cbn. now rewrite E.
    + intros (id & old & E & _). apply (step_wf rf h t (OSetNode p v tag dc) t1 (ROld old) W). cbn. now rewrite E.
    + intros (old & E & _). apply (step_wf rf h t (OSetEmpty p) t1 (ROld old) W). cbn. now rewrite E.
    + intros (t2 & id & old & E & -> & _). apply (step_wf rf h t (OSetWith p v f) _ (ROld old) W). cbn. now rewrite E.
Qed.
(** ** a goroutine alone, and the same calls in another place of a history *)
Lemma all_noid rf C C' job : clen C' = clen C -> cpre C' = cpre C -> (forall d, cold d false C -> cold d false C') ->
  forall m m' nx nx' t2 xs, wf_tr (Tr (plug C m) nx) -> wf_tr (Tr (plug C' m') nx') -> noid m = noid m' -> Forall (within C (npath m)) job ->
  does_all (S rf) (Tr (plug C m) nx) job t2 xs ->
  exists m2 nx2 m2' nx2', t2 = Tr (plug C m2) nx2 /\ does_all (S rf) (Tr (plug C' m') nx') job (Tr (plug C' m2') nx2') xs /\
    wf_tr (Tr (plug C' m2') nx2') /\ noid m2 = noid m2' /\ npath m2 = npath m.
Proof.
  intros EC EP CO. induction job as [|it job IH]; intros m m' nx nx' t2 xs W W' NI F H; inversion H as [|? ? t1 x ? ? xs' H1 H2]; subst.
  - exists m, nx, m', nx'. split; [reflexivity|]. split; [constructor|]. auto.
  - inversion F as [|? ? F1 F2]; subst. pose proof H1 as D. apply step_sdoes in D; auto. destruct D as (m1 & nx1 & -> & D).
    destruct (sdoes_noid _ _ C' _ m' _ (last_spine C' m' None) _ nx' _ _ _ _ NI W W' F1 EC EP D) as (m1' & nx1' & D' & NI1).
    assert (F1' : within C' (npath m') it).
    { rewrite <- (noid_path _ _ NI). destruct F1 as (B & K). rewrite <- EP in B. split; [exact B|]. intros ST. destruct (K ST) as (K1 & K2 & K3). auto. }
    assert (S' : does_i (S rf) (Tr (plug C' m') nx') it (Tr (plug C' m1') nx1') x) by (apply step_sdoes; eauto).
    assert (W1 : wf_tr (Tr (plug C m1) nx1)) by (apply (does_wf _ _ _ _ _ W H1)).
    assert (W1' : wf_tr (Tr (plug C' m1') nx1')) by (apply (does_wf _ _ _ _ _ W' S')).
    destruct (sdoes_head _ _ _ _ _ _ _ _ _ F1 D) as (P1 & _). rewrite <- P1 in F2.
    destruct (IH m1 m1' nx1 nx1' t2 xs' W1 W1' NI1 F2 H2) as (m2 & nx2 & m2' & nx2' & E1 & E2 & E3 & E4 & E5).
    exists m2, nx2, m2', nx2'. split; [exact E1|]. split; [econstructor; eauto|]. split; [exact E3|]. split; [exact E4|congruence].
Qed.
Lemma split_kids {A} (f : node -> A) ks l k r : map f ks = map f (l ++ k :: r) -> exists l' k' r', ks = l' ++ k' :: r' /\ map f l' = map f l /\ f k' = f k /\ map f r' = map f r.
Proof.
  revert ks. induction l as [|a l IH]; intros [|b ks]; cbn; intros E; try discriminate.
  - injection E as E1 E2. exists [], b, ks. auto.
  - injection E as E1 E2. destruct (IH ks E2) as (l' & k' & r' & -> & X & Y & Z). exists (b :: l'), k', r'. cbn. rewrite E1, X. auto.
Qed.
Lemma noid_ctx C : forall m r, noid r = noid (plug C m) -> exists C' m', r = plug C' m' /\ noid m' = noid m /\ clen C' = clen C /\ cpre C' = cpre C /\
  (forall d lrd, cold d lrd C -> cold d lrd C') /\ (forall x x', noid x = noid x' -> noid (plug C' x) = noid (plug C x')).
Proof.
  induction C as [|n l C IH r0]; intros m r E; cbn [plug] in E.
  - exists Hole, r. cbn. auto 8.
  - apply noid_inv in E as [H K]. cbn [nkids set_kids] in K. apply split_kids in K. destruct K as (l' & k' & r' & EK & E1 & E2 & E3).
    destruct (IH m k' E2) as (C' & m' & -> & I1 & I2 & I3 & I4 & I5). exists (Down r l' C' r'), m'.
    assert (RP : npath r = npath n) by apply H.
    split; [cbn [plug]; rewrite <- EK; now destruct r|]. split; [exact I1|]. split; [cbn; congruence|]. split; [cbn; congruence|]. split.
    + intros d lrd [CO1 CO2]. cbn [cold]. rewrite RP. split; [|auto]. intros k Hk.
      assert (X : exists k0, In k0 (l ++ r0) /\ npath k0 = npath k).
      { assert (In (noid k) (map noid (l ++ r0))) as Hi by (rewrite map_app, <- E1, <- E3, <- map_app; now apply in_map).
        apply in_map_iff in Hi. destruct Hi as (k0 & Q & Hk0). exists k0. split; [exact Hk0|]. now apply noid_path. }
      destruct X as (k0 & Hk0 & <-). now apply CO1.
    + intros x x' Hx. cbn [plug]. apply noid_kids; [exact H|]. rewrite !map_app. cbn [map]. rewrite E1, E3, (I5 x x' Hx). reflexivity.
Qed.
(** no patterns in the tree: no sibling begins with one *)
Lemma plain_cold d C : forall pre m, wfn (plug C m) -> plain_tree d pre (plug C m) -> cold d (lrd_end d false pre) C.
Proof.
  induction C as [|n l C IH r]; intros pre m W P; [exact I|]. cbn [cold plug] in *. pose proof (wfn_forall _ W) as F. cbn [nkids set_kids] in F.
  rewrite Forall_forall in F. rewrite <- lrd_end_app. split.
  - intros k Hk. assert (Hk' : In k (l ++ plug C m :: r)) by (rewrite in_app_iff in *; cbn; tauto).
    pose proof (plain_tree_kid d pre _ k P Hk') as PK. cbn [npath set_kids] in PK. destruct (F k Hk') as [NE _].
    destruct (npath k) as [|c p] eqn:E; [congruence|]. cbn [nth]. exact (proj1 (mismatch_plain d (pre ++ npath n) k [] c p PK E)).
  - assert (Hk' : In (plug C m) (l ++ plug C m :: r)) by (rewrite in_app_iff; cbn; tauto).
    apply (IH (pre ++ npath n) m); [now apply F|]. exact (plain_tree_kid d pre _ _ P Hk').
Qed.
Lemma graft_cold g d C : forall m lrd, (forall k x, sub (plug C m) k -> g (nid k) = Some x -> npath x = npath k) -> cold d lrd C -> cold d lrd (graftc g C).
Proof.
  induction C as [|n l C IH r]; intros m lrd G; [auto|]. intros [CO1 CO2]. cbn [graftc cold plug] in *. split.
  - rewrite <- map_app. intros k Hk. apply in_map_iff in Hk. destruct Hk as (k0 & <- & Hk0).
    assert (NP : npath (graft g k0) = npath k0).
    { rewrite graft_eq. destruct (g (nid k0)) as [x|] eqn:E; [|reflexivity]. apply G; auto. apply sub_kid with k0; [cbn; rewrite in_app_iff in *; cbn; tauto|constructor]. }
    rewrite NP. now apply CO1.
  - apply (IH m); auto. intros k x Hs. apply G. apply sub_kid with (plug C m); auto. cbn. apply in_app_iff. right. now left.
Qed.

Lemma sub_uniq R : NoDup (ids R) -> forall a b, sub R a -> sub R b -> nid a = nid b -> a = b.
Proof.
  induction R as [R IH] using node_ind'. intros ND a b A B E. rewrite Forall_forall in IH.
  assert (KD : forall k, In k (nkids R) -> NoDup (ids k) /\ nid R <> nid k /\ ~ In (nid R) (ids k)).
  { intros k Hk. apply in_split in Hk. destruct Hk as (l & r & Ek). split; [|split].
    - apply (kid_only R l k r (nid k) ND Ek). rewrite ids_eq. now left.
    - intros Q. apply (kid_only R l k r (nid k) ND Ek); [rewrite ids_eq; now left|exact Q].
    - intros Q. now apply (kid_only R l k r (nid R) ND Ek Q). }
  inversion A as [|k a' Hk A']; subst; inversion B as [|k' b' Hk' B']; subst.
  - reflexivity.
  - exfalso. apply sub_in in B'. rewrite <- E in B'. now apply (KD k' Hk').
  - exfalso. apply sub_in in A'. rewrite E in A'. now apply (KD k Hk).
  - assert (k = k') as <-; [|apply (IH k Hk); auto; now apply KD].
    apply in_split in Hk. destruct Hk as (l & r & Ek). destruct (kid_only R l k r (nid a) ND Ek) as (_ & N1 & N2 & _); [now apply sub_in|].
    rewrite Ek in Hk'. apply in_app_iff in Hk'. destruct Hk' as [Hk'|[Q|Hk']]; [|exact Q|].
    + exfalso. apply (N1 k' Hk'). rewrite E. now apply sub_in.
    + exfalso. apply (N2 k' Hk'). rewrite E. now apply sub_in.
Qed.
Lemma plug_sub C m : sub (plug C m) m.
Proof. induction C as [|n l C IH r]; [constructor|]. cbn [plug]. apply sub_kid with (plug C m); [cbn; apply in_app_iff; right; now left|exact IH]. Qed.
Lemma plug_inj C a b : plug C a = plug C b -> a = b.
Proof.
  induction C as [|n l C IH r]; auto. cbn [plug]. intros Q. apply IH.
  assert (nkids (set_kids n (l ++ plug C a :: r)) = nkids (set_kids n (l ++ plug C b :: r))) as Q2 by now rewrite Q.
  cbn in Q2. apply app_inv_head in Q2. congruence.
Qed.
Lemma does_all_app rf t job t1 xs : does_all rf t job t1 xs -> forall job' t2 xs', does_all rf t1 job' t2 xs' -> does_all rf t (job ++ job') t2 (xs ++ xs').
Proof. induction 1 as [|t it t1 x job t2 xs D H IH]; intros job' t3 xs' H'; [exact H'|]. cbn. econstructor; eauto. Qed.
Lemma does_all_wf rf t job t' xs : does_all rf t job t' xs -> wf_tr t -> wf_tr t'.
Proof.
  intros H. induction H as [|t it t1 x job t2 xs D H IH]; auto. intros W. apply IH; auto. eapply does_wf; eauto.
Qed.
(** a goroutine: its section, its calls, the replies and the section at the end when it runs alone *)
Record task := Tk { k_sec : section; k_work : list item; k_out : list reply; k_end : node }.
Definition k_ctx (k : task) : ctx := sc_ctx (k_sec k).
Definition k_node (k : task) : node := sc_node (k_sec k).
Definition task_ok (rf : nat) (R : node) (nx : nat) (k : task) : Prop :=
  plug (k_ctx k) (k_node k) = R /\ Forall (within (k_ctx k) (npath (k_node k))) (k_work k) /\ npath (k_end k) = npath (k_node k) /\
  exists nx2, does_all rf (Tr R nx) (k_work k) (Tr (plug (k_ctx k) (k_end k)) nx2) (k_out k).
Definition ends (ts : list task) : list (section * node) := map (fun k => (k_sec k, k_end k)) ts.
Lemma grown_ends ts a x : grown_by (ends ts) a = Some x -> exists k, In k ts /\ nid (k_node k) = a /\ x = k_end k.
Proof.
  unfold ends. induction ts as [|k ts IH]; cbn [map grown_by]; [discriminate|]. unfold also. destruct (Nat.eqb_spec a (nid (sc_node (k_sec k)))) as [->|N].
  - intros E. injection E as <-. exists k. cbn. auto.
  - intros E. destruct (IH E) as (k' & H1 & H2 & H3). exists k'. cbn. auto.
Qed.
Lemma seq_work rf R nx : wf_tr (Tr R nx) -> forall ts, Forall (task_ok (S rf) R nx) ts ->
  ForallOrdPairs (fun k k' => sec_apart (k_sec k) (k_sec k') /\ sec_apart (k_sec k') (k_sec k)) ts ->
  exists t', does_all (S rf) (Tr R nx) (concat (map k_work (rev ts))) t' (concat (map k_out (rev ts))) /\ wf_tr t' /\
    noid (root t') = noid (graft (grown_by (ends ts)) R).
Proof.
  intros WT ts. induction ts as [|k ts IH]; intros F A.
  - exists (Tr R nx). split; [constructor|]. split; [exact WT|]. cbn. now rewrite graft_none.
  - inversion F as [|? ? FK F']; subst. inversion A as [|? ? A1 A2]; subst. destruct (IH F' A2) as (t & E2 & WT1 & E3).
    set (g := grown_by (ends ts)) in *. destruct FK as (Hp & HW & HE & nx2 & HD). set (C := k_ctx k) in *. set (m := k_node k) in *.
    assert (NONE : forall k', In k' ts -> sec_apart (k_sec k') (k_sec k)).
    { intros k' Hin. rewrite Forall_forall in A1. now apply A1. }
    assert (SP : forall a, In a (spine C) -> g a = None).
    { intros a Ha. destruct (g a) as [x|] eqn:E; [|reflexivity]. apply grown_ends in E. destruct E as (k' & Hk & <- & _). destruct (NONE k' Hk) as [X _]. now destruct X. }
    assert (GM : graft g m = m).
    { apply graft_none. intros a Ha. destruct (g a) as [x|] eqn:E; [|reflexivity]. apply grown_ends in E. destruct E as (k' & Hk & <- & _). destruct (NONE k' Hk) as [_ X]. now destruct X. }
    assert (E4 : noid (root t) = noid (plug (graftc g C) m)).
    { rewrite E3. rewrite <- Hp. rewrite graft_plug by exact SP. now rewrite GM. }
    destruct (noid_ctx _ _ _ E4) as (C' & m' & Er & N1 & N2 & N3 & N4 & N5). rewrite graftc_len in N2. rewrite graftc_pre in N3.
    destruct t as [rt nxt]. cbn [root] in *. subst rt.
    destruct (all_noid rf C C' (k_work k) N2 N3) with (m := m) (m' := m') (nx := nx) (nx' := nxt) (t2 := Tr (plug C (k_end k)) nx2) (xs := k_out k)
      as (m2 & nx3 & m2' & nx2' & X1 & X2 & X3 & X4 & _); auto.
    { intros d CO. apply N4. apply (graft_cold g d C m false); [|exact CO]. intros n x Hs E. apply grown_ends in E. destruct E as (k' & Hk & E & ->).
      rewrite Forall_forall in F'. destruct (F' k' Hk) as (Hp' & _ & HE' & _). rewrite HE'.
      f_equal. apply (sub_uniq R); [apply (ids_wf _ WT)|rewrite <- Hp'; apply plug_sub|rewrite <- Hp; exact Hs|exact E]. }
    { now rewrite Hp. }
    { now rewrite Hp. }
    exists (Tr (plug C' m2') nx2'). split; [|split; [exact X3|]].
    + cbn [rev]. rewrite !map_app, !concat_app. cbn [map concat]. rewrite !app_nil_r. eapply does_all_app; eauto.
    + cbn [root]. assert (XE : noid (k_end k) = noid m2').
      { assert (plug C (k_end k) = plug C m2) as Q by congruence. rewrite <- X4. f_equal. now apply plug_inj in Q. }
      rewrite (N5 m2' (k_end k) (eq_sym XE)). cbn [ends map grown_by]. fold (ends ts). fold g. fold m. change (sc_node (k_sec k)) with m.
      rewrite <- Hp. rewrite graft_also; [reflexivity| |exact SP]. rewrite Hp. apply (ids_wf _ WT).
Qed.
