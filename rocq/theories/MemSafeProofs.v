(** The programs of the tree in memory are safe in the sense of MemSafe.v. *)
From Coq Require Import List NArith Bool Arith Lia.
From Verif Require Import GoStr Utf8 Node NodeWf Trie Store Heap HeapProofs HeapWalk HeapGet HeapGetProofs HeapRemove HeapSee HeapSeeProofs Cvter HeapExport HeapStore
  HeapLin HeapWork HeapCalls MemSpec MemSafe.
Import ListNotations.
Open Scope nat_scope.

Definition span (w : world) (r i k : nat) : Prop := forall j, i <= j -> j < i + k -> wl w r j.
Lemma span_le w w' r i k : le w w' -> span w r i k -> span w' r i k. Proof. intros [_ B] X j H1 H2. auto. Qed.
Lemma hdr_span w s : hdr w s -> span w (sl_arr s) 0 (sl_len s). Proof. intros H j _ L. apply H. lia. Qed.
Lemma span_hdr w r k : span w r 0 k -> hdr w (Sl r k). Proof. intros H i L. cbn in *. apply H; lia. Qed.
Lemma span_sub w r i k i' k' : span w r i k -> i <= i' -> i' + k' <= i + k -> span w r i' k'. Proof. intros H A B j L1 L2. apply H; lia. Qed.
Lemma span_all w r c : (forall i, i < c -> wl w r i) -> span w r 0 c. Proof. intros H j _ L. apply H. lia. Qed.
Lemma hdr0 w r : hdr w (Sl r 0). Proof. intros i L. cbn in L. lia. Qed.

Ltac lift1 w w' L :=
  repeat match goal with
  | H : ptr w ?a |- _ => apply (ptr_le w w' a L) in H
  | H : opt w ?a |- _ => apply (opt_le w w' a L) in H
  | H : hdr w ?a |- _ => apply (hdr_le w w' a L) in H
  | H : span w ?r ?i ?k |- _ => apply (span_le w w' r i k L) in H
  | H : Forall (ptr w) ?l |- _ => apply (all_le w w' l L) in H
  end.
Ltac lift := match goal with L : le ?w ?w' |- _ => lift1 w w' L; clear L end.
Ltac get n := apply sf_get; [assumption|]; let w := fresh "w" in let L := fresh "L" in let H := fresh "HK" in intros w n L H; lift.
Ltac upd := apply sf_upd; [assumption|intros; cbn in *; try assumption; try apply hdr0|let w := fresh "w" in let L := fresh "L" in intros w L; lift].
Ltac elem x := apply sf_elem; [|let w := fresh "w" in let L := fresh "L" in let H := fresh "PX" in intros w x L H; lift].
Ltac bind T x := eapply safe_bind; [eapply T; try eassumption|let w := fresh "w" in let L := fresh "L" in let H := fresh "HR" in cbv beta; intros w x L H; lift].

Lemma read_safe r : forall k w i, span w r i k -> safe (fun w' l => Forall (ptr w') l /\ length l = k) w (p_read r i k).
Proof.
  induction k as [|k IH]; intros w i S; cbn [p_read]; [constructor; auto|]. elem x; [apply S; lia|].
  bind IH l; [apply (span_sub _ _ _ _ _ _ S); lia|]. destruct HR as [F E]. constructor. split; [auto|cbn; now rewrite E].
Qed.
Lemma write_safe r : forall l w i, span w r i (length l) -> Forall (ptr w) l -> safe any w (p_write r i l).
Proof.
  induction l as [|x l IH]; intros w i S F; cbn [p_write]; [constructor; exact I|]. pose proof (Forall_inv F) as PX. apply Forall_inv_tail in F.
  apply sf_set; [apply S; cbn; lia|exact PX|]. intros w' L. lift. apply IH; [|exact F]. apply (span_sub _ _ _ _ _ _ S); cbn; lia.
Qed.
Lemma repeat_ptr w k : Forall (ptr w) (repeat 0 k). Proof. apply Forall_forall. intros x H. apply repeat_spec in H. now right. Qed.
Lemma append_safe grow w s x : hdr w s -> ptr w x -> safe hdr w (p_append grow s x).
Proof.
  intros H P. unfold p_append. apply sf_cap. intros w' c L C. lift. destruct (Nat.ltb_spec (sl_len s) c) as [Q|Q].
  - apply sf_set; [auto|exact P|]. intros u1 L. constructor. intros i Hi. cbn in *. apply L. apply C. lia.
  - apply hdr_span in H as S. bind read_safe l. destruct HR as [F E]. apply sf_newa.
    + apply Forall_app. split; [exact F|]. constructor; [exact P|apply repeat_ptr].
    + intros u2 r L C2. constructor. intros i Hi. cbn in *. apply C2. rewrite app_length, E. cbn. lia.
Qed.
Lemma appends_safe grow w s l : hdr w s -> Forall (ptr w) l -> safe hdr w (p_appends grow s l).
Proof.
  intros H P. unfold p_appends. apply sf_cap. intros w' c L C. lift. destruct (Nat.leb_spec (sl_len s + length l) c) as [Q|Q].
  - apply span_all in C. assert (C' := C). bind write_safe u; [apply (span_sub _ _ _ _ _ _ C); lia|]. constructor. apply span_hdr. apply (span_sub _ _ _ _ _ _ C); lia.
  - apply hdr_span in H as S. bind read_safe l0. destruct HR as [F E]. apply sf_newa.
    + apply Forall_app. split; [exact F|]. apply Forall_app. split; [exact P|apply repeat_ptr].
    + intros u2 r L C2. constructor. intros i Hi. cbn in *. apply C2. rewrite !app_length, E. lia.
Qed.
Lemma leaf_safe grow w s word p v : ptr w s -> safe ptr w (p_leaf grow s word p v).
Proof.
  intros P. unfold p_leaf. apply sf_new; [apply hdr0|]. intros u1 x L PX. lift. get n. bind append_safe sl. 
  apply sf_upd; [assumption| |].
  - intros w' n' L _. cbn. now apply (hdr_le _ _ _ L).
  - intros w' L. lift. now constructor.
Qed.
Lemma split_safe w s pos : ptr w s -> safe any w (p_split s pos).
Proof.
  intros P. unfold p_split. get n. apply sf_new; [exact HK|]. intros u1 x L PX. lift. upd. destruct (_ <=? _); [|constructor]. upd.
  apply sf_newa; [auto|]. intros u2 r L C. lift. apply span_all, span_hdr in C. cbn in C. apply sf_upd; [assumption| |].
  - intros w' n' L _. cbn. now apply (hdr_le _ _ _ L).
  - intros w' L. lift. upd. upd. upd. upd. upd. constructor. exact I.
Qed.
Lemma match_safe word r : forall k w i, span w r i k -> safe opt w (p_match word r i k).
Proof.
  induction k as [|k IH]; intros w i S; cbn [p_match]; [constructor; exact I|]. elem x; [apply S; lia|]. get n.
  destruct (hpath n) as [|c0 ?]; [constructor|]. destruct word as [|c1 ?]; [constructor|]. destruct (_ =? _)%N; [now constructor|].
  apply IH. apply (span_sub _ _ _ _ _ _ S); lia.
Qed.
Lemma insert_safe grow p v : forall f w s word, ptr w s -> safe (fun w' r => ptr w' (fst (fst r))) w (p_insert grow f s word p v).
Proof.
  induction f as [|f IH]; intros w s word P; cbn [p_insert]; [constructor|]. get n. destruct (_ && _).
  { bind leaf_safe x. now constructor. }
  set (cpl := if _ && _ then _ else _). eapply safe_bind with (P := any).
  { destruct (cpl <? _); [now apply split_safe|now constructor]. }
  intros u1 [] L _. lift. destruct (cpl <? _).
  - get b. apply hdr_span in HK0 as S. bind match_safe m. destruct m as [c|].
    + cbn in HR. bind IH r. destruct r as [[id old] calls]. now constructor.
    + bind leaf_safe x. now constructor.
  - get b. upd. get b'. upd. now constructor.
Qed.
Lemma set_safe grow w rt k v : ptr w rt -> safe (fun w' r => ptr w' (fst (fst r))) w (p_set grow rt k v).
Proof. intros P. unfold p_set. now apply insert_safe. Qed.
Lemma find_safe r c : forall k w i, span w r i k -> safe any w (p_find r i k c).
Proof.
  induction k as [|k IH]; intros w i S; cbn [p_find]; [constructor; exact I|]. elem x; [apply S; lia|]. destruct (_ =? _); [now constructor|].
  apply IH. apply (span_sub _ _ _ _ _ _ S); lia.
Qed.
Lemma remove_safe grow w s c : ptr w s -> safe any w (p_remove grow s c).
Proof.
  intros P. unfold p_remove. get n. apply hdr_span in HK. bind find_safe o. destruct o as [i|]; [|now constructor]. get n1.
  apply sf_cap. intros u3 cap L C. lift. apply span_all in C. destruct (Nat.leb_spec i cap) as [Q|Q]; [|constructor]. get n2.
  destruct (Nat.leb_spec (S i) (sl_len (hkids n2))) as [Q2|Q2]; [|constructor]. apply hdr_span in HK1.
  bind read_safe l; [apply (span_sub _ _ _ _ _ _ HK1); lia|]. destruct HR0 as [F E].
  assert (HI : hdr w4 (Sl (sl_arr (hkids n1)) i)) by (apply span_hdr; apply (span_sub _ _ _ _ _ _ C); lia).
  bind appends_safe sl. apply sf_upd; [assumption| |].
  - intros w' n' L _. cbn. now apply (hdr_le _ _ _ L).
  - intros w' L. lift. now constructor.
Qed.
Lemma dup_safe grow clone : forall f w s, ptr w s -> safe ptr w (p_dup grow clone f s).
Proof.
  induction f as [|f IH]; intros w s P; cbn [p_dup]; [constructor|]. get n. apply sf_new; [apply hdr0|]. intros u1 x L PX. lift.
  apply sf_newa; [apply repeat_ptr|]. intros u2 r L C. lift. upd. 
  assert (D : forall k w i, ptr w x -> span w (sl_arr (hkids n)) i k -> safe any w (p_dups grow (p_dup grow clone f) x (sl_arr (hkids n)) i k)).
  { clear - IH. induction k as [|k IHk]; intros w i PX S; cbn [p_dups]; [now constructor|]. elem c; [apply S; lia|]. bind IH c'.
    get nx. bind append_safe sl. apply sf_upd; [assumption| |].
    - intros w' n' L _. cbn. now apply (hdr_le _ _ _ L).
    - intros w' L. lift. apply IHk; [assumption|]. apply (span_sub _ _ _ _ _ _ S); lia. }
  apply hdr_span in HK. bind D u. get n'. upd. now constructor.
Qed.
Lemma each_safe {A} (go : nat -> prog (list A)) r : (forall w c, ptr w c -> safe any w (go c)) ->
  forall (f : nat -> nat -> nat -> prog (list A)), (forall r i k, f r i k = match k with O => Ret [] | S k => GetA r i (fun c => let* l1 := go c in let* l2 := f r (S i) k in Ret (l1 ++ l2)) end) ->
  forall k w i, span w r i k -> safe any w (f r i k).
Proof.
  intros G f F. induction k as [|k IH]; intros w i S; rewrite F; [now constructor|]. elem c; [apply S; lia|]. bind G l1. bind IH l2; [|now constructor].
  apply (span_sub _ _ _ _ _ _ S); lia.
Qed.
Lemma walk_safe cb : (forall w a, ptr w a -> safe any w (cb a)) -> forall f w s, ptr w s -> safe any w (p_walk cb f s).
Proof.
  intros C. induction f as [|f IH]; intros w s P; cbn [p_walk]; [constructor|]. bind C u. get n. apply hdr_span in HK.
  eapply safe_bind; [eapply (each_safe (p_walk cb f) _ IH (p_walks (p_walk cb f))); [intros ? ? []; reflexivity|exact HK]|]. intros. now constructor.
Qed.
Lemma show_safe w a : ptr w a -> safe any w (p_show a).
Proof. intros P. unfold p_show. get n1. get n2. get n3. get n4. now constructor. Qed.
Lemma tour_safe : forall f w s, ptr w s -> safe any w (p_tour f s).
Proof.
  induction f as [|f IH]; intros w s P; cbn [p_tour]; [constructor|]. bind show_safe u. get n. apply hdr_span in HK.
  eapply safe_bind; [eapply (each_safe (p_tour f) _ IH (p_tours (p_tour f))); [intros ? ? []; reflexivity|exact HK]|]. intros. now constructor.
Qed.
Lemma take_safe d flt w a : ptr w a -> safe any w (p_take d flt a).
Proof.
  intros P. unfold p_take. get n1. get n2. destruct (simpleEndsWith _ _); [now constructor|]. get n3. destruct (isBranch _); [now constructor|].
  eapply safe_bind with (P := any).
  - destruct flt; [|now constructor]. bind show_safe x. now constructor.
  - intros u4 ok L _. lift. destruct ok; [|now constructor]. get n4. now constructor.
Qed.
Lemma pick_safe d flt : forall f w s, ptr w s -> safe any w (p_pick d flt f s).
Proof.
  induction f as [|f IH]; intros w s P; cbn [p_pick]; [constructor|]. bind take_safe u. get n. apply hdr_span in HK.
  eapply safe_bind; [eapply (each_safe (p_pick d flt f) _ IH (p_picks (p_pick d flt f))); [intros ? ? []; reflexivity|exact HK]|]. intros. now constructor.
Qed.

(** ** the search *)
Definition found (w : world) (r : hmres) : Prop := opt w (hm_child r) /\ opt w (hm_parent r).
Lemma found_le w w' r : le w w' -> found w r -> found w' r. Proof. intros L [A B]. split; eauto using opt_le. Qed.
Lemma scan_safe a d : forall k w word i lrd, ptr w a -> safe any w (p_scan a d word i k lrd).
Proof.
  induction k as [|k IH]; intros w word i lrd P; cbn [p_scan]; [now constructor|]. get n. destruct (nth_error _ _); [|constructor].
  destruct word; [constructor|]. destruct (_ =? _)%N; [now apply IH|now constructor].
Qed.
Lemma after_safe d w a l wl parent src mt pt : ptr w a -> opt w parent ->
  safe (fun w' r => opt w' (snd (fst r)) /\ opt w' (snd r)) w (p_after d a l wl parent src mt pt).
Proof.
  intros P O. unfold p_after. destruct (S src =? l).
  - get n. destruct (nth_error _ _); [|constructor]. constructor. destruct (_ =? _)%N; [cbn; auto|]. destruct (_ && _); [cbn; auto|]. destruct (_ && _); [cbn; auto|].
    destruct mt; cbn; auto.
  - constructor. destruct (_ && _); [cbn; auto|]. destruct (_ && _); [cbn; auto|]. destruct mt; cbn; auto.
Qed.
Lemma matchR_safe rf d : forall f w a word lrd parent kv, ptr w a -> opt w parent -> safe found w (p_matchR rf f d a word lrd parent kv).
Proof.
  induction f as [|f IH]; intros w a word lrd parent kv P O; cbn [p_matchR]; [constructor|]. get n0. destruct (length word =? 0); [constructor; split; cbn; auto|].
  bind scan_safe sc. destruct sc as [[i lrd1] ch].
  eapply safe_bind with (P := fun w' ex => match ex with HReturn r => found w' r | HBreak _ _ _ _ _ _ => True end).
  { destruct (i <? _); [|now constructor]. get n. destruct (retriever _ _ _ _ _ _ _ _ _ _) as [ex| |] eqn:E; [|constructor|constructor]. constructor.
    destruct ex as [r|]; [|exact I]. split; cbn.
    - destruct (m_child r) as [c|] eqn:EC; [|exact I]. rewrite (retriever_child _ _ _ _ _ _ _ _ _ _ _ _ E EC). exact P.
    - destruct (retriever_parent _ _ _ _ _ _ _ _ _ _ _ E) as [-> | ->]; [|exact I]. destruct parent; exact O. }
  intros u2 ex L HX. destruct ex as [r|src dst lrd2 mt pt kv2]; [now constructor|]. clear HX. lift.
  bind after_safe af. destruct af as [[[matched partial] child] parent2]. destruct HR0 as [OC OP]. cbn in OC, OP. 
  destruct (_ <? _); [|constructor; split; assumption]. get n1. destruct (_ =? 0); [constructor; split; assumption|]. get n2. apply hdr_span in HK1.
  match goal with |- safe _ _ (p_each ?g _ _ _ _) => set (go := g) end.
  assert (G : forall w c kv, ptr w c -> ptr w a -> safe found w (go c kv)) by (intros; apply IH; assumption). clearbody go.
  match goal with |- safe _ ?W _ => assert (FL : found W (HM matched partial child parent2 kv2)) by (split; assumption); revert FL;
    generalize (HM matched partial child parent2 kv2); clear - HK1 G P; revert HK1; generalize (sl_arr (hkids n2)) as r, 0 as i;
    generalize (sl_len (hkids n2)) as k; intros k; revert W P end.
  induction k as [|k IHk]; intros w P r i S last FL; cbn [p_each]; [now constructor|]. apply sf_elem; [apply S; lia|]. intros u1 c L PC. lift.
  eapply safe_bind; [apply G; assumption|]. intros u2 x L HX. lift. destruct (_ || _); [now constructor|]. apply IHk; [assumption| |assumption].
  apply (span_sub _ _ _ _ _ _ S); lia.
Qed.
Definition sfound (w : world) (r : hsres) : Prop := opt w (hs_node r) /\ opt w (hs_parent r).
Lemma climb_safe rf dep d rt : forall f w word kv, ptr w rt -> safe sfound w (p_climb rf dep f d rt word kv).
Proof.
  induction f as [|f IH]; intros w word kv P; cbn [p_climb]; [constructor|]. destruct (_ <? _); [|constructor; split; exact I].
  eapply safe_bind; [apply matchR_safe; [exact P|exact I]|]. intros u1 r L HR. lift. destruct (_ || _); [constructor; exact HR|]. now apply IH.
Qed.
Lemma search_safe rf dep h rt w word : ptr w rt -> safe sfound w (p_search rf dep h rt word).
Proof.
  intros P. unfold p_search. eapply safe_bind; [apply matchR_safe; [exact P|exact I]|]. intros u1 r L HR. lift. destruct (_ || _); [constructor; exact HR|].
  destruct (hmode h); try (constructor; split; exact I). destruct (contains _ _); [now apply climb_safe|constructor; split; exact I].
Qed.
Ltac find r := bind search_safe r; let A := fresh "HA" in let B := fresh "HB" in destruct r as [[?a|] [?p|] [|] ?kv]; match goal with H : sfound _ _ |- _ => destruct H as [A B]; cbn in A, B end;
  cbn [hs_node hs_parent hs_partial hs_kv]; try (constructor; exact I).
Lemma query_safe rf dep h rt w p : ptr w rt -> safe any w (p_query rf dep h rt p).
Proof.
  intros P. unfold p_query. find r.
  all: get n1; eapply safe_bind with (P := any); [destruct (isBranch _); [get n2|]; now constructor|].
  all: intros u2 b L _; lift; get n3; destruct (hasData _); [get n4|]; now constructor.
Qed.
Lemma removeEx_safe grow rf dep h rt w p : ptr w rt -> safe any w (p_removeEx grow rf dep h rt p).
Proof. intros P. unfold p_removeEx. find r. now apply remove_safe. Qed.
Lemma Walk_safe rf dep h rt w p : ptr w rt -> safe any w (p_Walk rf dep h rt p).
Proof.
  intros P. unfold p_Walk. destruct (is_nil p); [now apply tour_safe|]. bind search_safe r. destruct HR as [A B].
  destruct (hs_partial r); [now apply tour_safe|]. destruct (_ =? _)%N; [destruct (hs_node r)|destruct (hs_parent r)]; try now constructor. all: now apply tour_safe.
Qed.
Lemma locate_safe rf dep h rt w p : ptr w rt -> safe (fun w' r => opt w' (fst (fst r))) w (p_locate rf dep h rt p).
Proof. intros P. unfold p_locate. bind search_safe r. destruct HR as [A B]. destruct (hs_node r); [|now constructor]. get n0. constructor. exact A. Qed.
Lemma GetR_safe rf dep h rt w p defs : ptr w rt -> safe any w (p_GetR rf dep h rt p defs).
Proof.
  intros P. unfold p_GetR. destruct (is_root_path p); [bind pick_safe l; now constructor|]. bind locate_safe r. destruct r as [[n partial] fnd]. cbn in HR.
  destruct (_ || _); [|now constructor]. destruct n; [|now constructor]. cbn in HR. bind pick_safe l. now constructor.
Qed.
Lemma GetM_safe order rf dep h rt w p o : ptr w rt -> safe any w (p_GetM order rf dep h rt p o).
Proof.
  intros P. unfold p_GetM. destruct (is_root_path p); [bind pick_safe l; now constructor|]. bind locate_safe r. destruct r as [[n partial] fnd]. cbn in HR.
  destruct (_ || _); [|now constructor]. destruct n; [|now constructor]. cbn in HR. bind pick_safe l. now constructor.
Qed.
Lemma To_safe order rf dep h rt w p o : ptr w rt -> safe any w (p_To order rf dep h rt p o).
Proof. intros P. unfold p_To. bind GetM_safe r. destruct r as [[m|]| |]; try now constructor. bind GetR_safe r2. now constructor. Qed.

(** ** the calls *)
Lemma setModified_safe w a : ptr w a -> safe any w (p_setModified a).
Proof. intros P. unfold p_setModified. get n. upd. now constructor. Qed.
Lemma setKV_safe grow s rt w p v c : ptr w rt -> safe any w (p_setKV grow s rt p v c).
Proof.
  intros P. unfold p_setKV. bind set_safe r. destruct r as [[a old] cs]. cbn in HR. eapply safe_bind with (P := any).
  - destruct (negb _); [now apply setModified_safe|now constructor].
  - intros u2 u L _. now constructor.
Qed.
Lemma storeSet_safe grow rf dep s rt w p v : ptr w rt -> safe any w (p_storeSet grow rf dep s rt p v).
Proof. intros P. unfold p_storeSet. bind query_safe q. now apply setKV_safe. Qed.
Lemma storeRemove_safe grow rf dep s rt w p : ptr w rt -> safe any w (p_storeRemove grow rf dep s rt p).
Proof. intros P. unfold p_storeRemove. find r. bind remove_safe b. destruct b; [|now constructor]. get n. now constructor. Qed.
Lemma code_safe grow rf dep rt w o : ptr w rt -> safe any w (code grow rf dep rt o).
Proof.
  intros P. destruct o as [h p|h p|h p|x h p|h p v|h p v|h p v|h p desc cmt|h p g]; cbn [code].
  - bind query_safe q. now constructor.
  - unfold p_has. eapply safe_bind with (P := any); [bind search_safe r; now constructor|]. intros. now constructor.
  - eapply safe_bind with (P := any); [|intros; now constructor]. unfold p_hasPart. find r. all: get n; now constructor.
  - eapply safe_bind with (P := any); [|intros; now constructor]. unfold p_attr. find r.
    all: get n1; eapply safe_bind with (P := any); [destruct (isBranch _); [get n2|]; now constructor|].
    all: intros u2 b L _; lift; destruct b; [get n3|]; now constructor.
  - bind set_safe r. now constructor.
  - eapply safe_bind with (P := any); [|intros; now constructor]. unfold p_tag. find r. all: upd; now constructor.
  - bind set_safe r. now constructor.
  - eapply safe_bind with (P := any); [|intros; now constructor]. unfold p_comment. find r. all: upd; upd; now constructor.
  - eapply safe_bind with (P := any); [|intros; now constructor]. unfold p_update. bind set_safe r. destruct r as [[a old] cs]. cbn in HR.
    upd. get n. upd. now constructor.
Qed.
Lemma acts_safe a l : forall w, ptr w a -> safe any w (p_acts a l).
Proof.
  induction l as [|x l IH]; intros w P; cbn [p_acts]; [now constructor|].
  destruct x as [v|d|c|v|f]; cbn [p_act seqp]; try (get n; cbn [seqp]); upd; cbn [seqp]; now apply IH.
Qed.
Lemma code_i_safe grow rf dep rt w it : ptr w rt -> safe any w (code_i grow rf dep rt it).
Proof.
  intros P. destruct it as [o|h p|h p v mark|h p|order h q|wc h p]; cbn [code_i].
  - now apply code_safe.
  - bind removeEx_safe b. now constructor.
  - bind set_safe r. eapply safe_bind with (P := any).
    + destruct mark; [now apply setModified_safe|now constructor].
    + intros. now constructor.
  - find r. bind remove_safe b. destruct b; [|now constructor]. get n. now constructor.
  - unfold p_ask. destruct q; [bind GetR_safe x|bind GetM_safe x|bind To_safe x]; now constructor.
  - bind set_safe r. eapply safe_bind with (P := any); [now apply acts_safe|intros; now constructor].
Qed.
Lemma call_safe grow rf dep rt w c : ptr w rt -> safe any w (p_call grow rf dep rt c).
Proof.
  intros P. destruct c as [it|s p v|s p]; cbn [p_call].
  - bind code_i_safe x. now constructor.
  - bind storeSet_safe x. now constructor.
  - bind storeRemove_safe x. now constructor.
Qed.

(** ** anything that the model has a program for *)
Section Deeds.
Variables (grow : nat -> nat) (order : gmap -> gmap) (clone : gval -> gval) (rf dep rt : nat).
Lemma deeds_safe : forall l w, ptr w rt -> safe any w (p_deeds grow order clone rf dep rt l).
Proof.
  induction l as [|x l IH]; intros w P; cbn [p_deeds]; [now constructor|]. eapply safe_bind with (P := any); [|intros w' u L _; lift; now apply IH].
  destruct x as [c|h p|h p o|h p|h p o|]; cbn [p_deed]; (eapply safe_bind; [|intros; now constructor]).
  - now apply call_safe.
  - now apply Walk_safe.
  - now apply GetM_safe.
  - now apply GetR_safe.
  - now apply To_safe.
  - apply safe_any with ptr. now apply dup_safe.
Qed.
End Deeds.
Theorem deeds_in_memory grow order clone rf dep rt jobs h sch : sound h -> pointer h rt ->
  let (qs, g) := schedule sch (map (p_deeds grow order clone rf dep rt) jobs) h in sound g /\ forall p, In p qs -> legal g p.
Proof.
  intros S P. apply schedule_safe; [exact S|]. intros w L. apply Forall_forall. intros p Hp. apply in_map_iff in Hp. destruct Hp as (l & <- & _).
  apply deeds_safe. apply (ptr_le (start h)); [exact L|]. destruct P as [P|P]; [left; exact P|right; exact P].
Qed.
Theorem calls_in_memory grow rf dep rt jobs h sch : sound h -> pointer h rt ->
  let (qs, g) := schedule sch (map (p_calls grow rf dep rt) jobs) h in sound g /\ forall p, In p qs -> legal g p.
Proof.
  intros S P. apply schedule_safe; [exact S|]. intros w L. apply Forall_forall. intros p Hp. apply in_map_iff in Hp. destruct Hp as (l & <- & _).
  assert (PT : ptr w rt). { apply (ptr_le (start h)); [exact L|]. destruct P as [P|P]; [left; exact P|right; exact P]. }
  clear - PT. revert w PT. induction l as [|c l IH]; intros w PT; cbn [p_calls]; [now constructor|]. bind call_safe y. bind IH ys. now constructor.
Qed.
Lemma sound_new : sound newHeap.
Proof.
  constructor.
  - intros a n. cbn. destruct (a =? 0); [|discriminate]. intros X. injection X as <-. cbn. lia.
  - intros r x [].
  - reflexivity.
Qed.
Theorem deeds_from_new grow order clone rf dep jobs sch :
  let (qs, g) := schedule sch (map (p_deeds grow order clone rf dep 0) jobs) newHeap in sound g /\ forall p, In p qs -> legal g p.
Proof. apply deeds_in_memory; [apply sound_new|now right]. Qed.
