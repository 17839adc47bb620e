(** Whatever goroutines do to one tree at the same time, they stay inside the arrays and follow only pointers to nodes or nil. *)
From Coq Require Import List NArith Bool Arith Lia.
From Verif Require Import GoStr Utf8 Node Trie Store Heap HeapProofs HeapWalk HeapGet HeapGetProofs HeapRemove HeapSee HeapSeeProofs HeapExport HeapStore
  HeapLin HeapWork HeapCalls MemSpec.
Import ListNotations.
Open Scope nat_scope.

(** ** what is known of the memory and stays true *)
Record world := World { wn : nat -> Prop; wl : nat -> nat -> Prop }.
Definition le (w w' : world) : Prop := (forall a, wn w a -> wn w' a) /\ (forall r i, wl w r i -> wl w' r i).
Definition ptr (w : world) (a : nat) : Prop := wn w a \/ a = 0.
Definition opt (w : world) (o : option nat) : Prop := match o with Some a => ptr w a | None => True end.
Definition hdr (w : world) (s : slice) : Prop := forall i, i < sl_len s -> wl w (sl_arr s) i.
Record holds (w : world) (h : heap) : Prop := {
  ho_node : forall a, wn w a -> exists n, hn h a = Some n;
  ho_hdr : forall a n, hn h a = Some n -> hdr w (hkids n);
  ho_len : forall r i, wl w r i -> i < length (ha h r) /\ r < na h;
  ho_arr : forall r x, In x (ha h r) -> ptr w x;
  ho_new : forall r, na h <= r -> ha h r = [] }.
Lemma le_refl w : le w w. Proof. split; auto. Qed.
Lemma le_trans w w1 w2 : le w w1 -> le w1 w2 -> le w w2. Proof. intros [A B] [C D]. split; auto. Qed.
Lemma ptr_le w w' a : le w w' -> ptr w a -> ptr w' a. Proof. intros [A _] [X|X]; [left|right]; auto. Qed.
Lemma opt_le w w' o : le w w' -> opt w o -> opt w' o. Proof. destruct o; cbn; eauto using ptr_le. Qed.
Lemma hdr_le w w' s : le w w' -> hdr w s -> hdr w' s. Proof. intros [_ B] X i Hi. auto. Qed.
Lemma all_le w w' l : le w w' -> Forall (ptr w) l -> Forall (ptr w') l. Proof. intros L F. eapply Forall_impl; [|exact F]. intros a. now apply ptr_le. Qed.

Inductive safe {A} (Q : world -> A -> Prop) : world -> prog A -> Prop :=
| sf_ret w x : Q w x -> safe Q w (Ret x)
| sf_die w : safe Q w Die
| sf_spin w : safe Q w Spin
| sf_get w a k : ptr w a -> (forall w' n, le w w' -> hdr w' (hkids n) -> safe Q w' (k n)) -> safe Q w (GetN a k)
| sf_upd w a f k : ptr w a -> (forall w' n, le w w' -> hdr w' (hkids n) -> hdr w' (hkids (f n))) -> (forall w', le w w' -> safe Q w' k) ->
    safe Q w (UpdN a f k)
| sf_new w n k : hdr w (hkids n) -> (forall w' x, le w w' -> ptr w' x -> safe Q w' (k x)) -> safe Q w (NewN n k)
| sf_elem w r i k : wl w r i -> (forall w' x, le w w' -> ptr w' x -> safe Q w' (k x)) -> safe Q w (GetA r i k)
| sf_set w r i x k : wl w r i -> ptr w x -> (forall w', le w w' -> safe Q w' k) -> safe Q w (SetA r i x k)
| sf_cap w r k : (forall w' c, le w w' -> (forall i, i < c -> wl w' r i) -> safe Q w' (k c)) -> safe Q w (CapA r k)
| sf_newa w l k : Forall (ptr w) l -> (forall w' r, le w w' -> (forall i, i < length l -> wl w' r i) -> safe Q w' (k r)) -> safe Q w (NewA l k).

Lemma safe_le {A} (Q : world -> A -> Prop) w p : (forall w w' x, le w w' -> Q w x -> Q w' x) -> safe Q w p -> forall w', le w w' -> safe Q w' p.
Proof.
  intros M S. induction S as [w x H|w|w|w a k P _ IH|w a f k P F _ IH|w n k H _ IH|w r i k H _ IH|w r i x k H P _ IH|w r k _ IH|w l k H _ IH]; intros w1 L.
  - constructor. eauto.
  - constructor.
  - constructor.
  - constructor; [eauto using ptr_le|]. intros w' n L' H. apply (IH w' n); eauto using le_trans, le_refl.
  - constructor; [eauto using ptr_le|intros; eapply F; eauto using le_trans|]. intros w' L'. apply (IH w'); eauto using le_trans, le_refl.
  - constructor; [eauto using hdr_le|]. intros w' x L' P. apply (IH w' x); eauto using le_trans, le_refl.
  - constructor; [apply L; exact H|]. intros w' x L' P. apply (IH w' x); eauto using le_trans, le_refl.
  - constructor; [apply L; exact H|eauto using ptr_le|]. intros w' L'. apply (IH w'); eauto using le_trans, le_refl.
  - constructor. intros w' c L' C. apply (IH w' c); eauto using le_trans, le_refl.
  - constructor; [eauto using all_le|]. intros w' r L' C. apply (IH w' r); eauto using le_trans, le_refl.
Qed.
Lemma safe_bind {A B} (P : world -> A -> Prop) (Q : world -> B -> Prop) w p (q : A -> prog B) : safe P w p ->
  (forall w' x, le w w' -> P w' x -> safe Q w' (q x)) -> safe Q w (seqp p q).
Proof.
  intros S. induction S as [w x H|w|w|w a k PT _ IH|w a f k PT F _ IH|w n k H _ IH|w r i k H _ IH|w r i x k H PT _ IH|w r k _ IH|w l k H _ IH]; intros C; cbn [seqp].
  - apply C; auto using le_refl.
  - constructor.
  - constructor.
  - constructor; auto. intros w' n L H. apply IH; auto. intros. apply C; eauto using le_trans.
  - constructor; auto. intros w' L. apply IH; auto. intros. apply C; eauto using le_trans.
  - constructor; auto. intros w' x L H'. apply IH; auto. intros. apply C; eauto using le_trans.
  - constructor; auto. intros w' x L H'. apply IH; auto. intros. apply C; eauto using le_trans.
  - constructor; auto. intros w' L. apply IH; auto. intros. apply C; eauto using le_trans.
  - constructor; auto. intros w' c L H'. apply IH; auto. intros. apply C; eauto using le_trans.
  - constructor; auto. intros w' r L H'. apply IH; auto. intros. apply C; eauto using le_trans.
Qed.
Lemma safe_imp {A} (P Q : world -> A -> Prop) w p : (forall w' x, le w w' -> P w' x -> Q w' x) -> safe P w p -> safe Q w p.
Proof.
  intros M S. induction S as [w x H|w|w|w a k PT _ IH|w a f k PT F _ IH|w n k H _ IH|w r i k H _ IH|w r i x k H PT _ IH|w r k _ IH|w l k H _ IH]; constructor; eauto using le_refl, le_trans.
Qed.

(** ** an access of a safe program is legal and keeps what is known *)
Definition grown_n (w : world) (a : nat) : world := World (fun b => wn w b \/ b = a) (wl w).
Definition grown_a (w : world) (r n : nat) : world := World (wn w) (fun q i => wl w q i \/ (q = r /\ i < n)).
Lemma le_n w a : le w (grown_n w a). Proof. split; cbn; auto. Qed.
Lemma le_a w r n : le w (grown_a w r n). Proof. split; cbn; auto. Qed.
Lemma ptr_pointer w h a : holds w h -> ptr w a -> pointer h a.
Proof. intros H [X|X]; [left; now apply (ho_node w h H)|now right]. Qed.
Lemma in_put {A} (l : list A) i x y : In y (put l i x) -> y = x \/ In y l.
Proof. revert i. induction l as [|a l IH]; intros [|i]; cbn; auto; intros [X|X]; auto. destruct (IH i X); auto. Qed.

Lemma access_safe {A} Q w h (p : prog A) : holds w h -> safe Q w p -> legal h p /\
  forall p' h', access p h = Some (p', h') -> exists w', le w w' /\ holds w' h' /\ safe Q w' p'.
Proof.
  intros H S. destruct S as [w x HQ|w|w|w a k P K|w a f k P F K|w n k HD K|w r i k E K|w r i x k E P K|w r k K|w l k F K]; cbn [legal access].
  - split; [exact I|discriminate].
  - split; [exact I|discriminate].
  - split; [exact I|discriminate].
  - split; [now apply ptr_pointer with w|]. intros p' h' X. injection X as <- <-. exists w. split; [apply le_refl|]. split; [exact H|].
    destruct (hn h a) as [n|] eqn:E; [|constructor]. apply K; [apply le_refl|]. now apply (ho_hdr w h H a).
  - split; [now apply ptr_pointer with w|]. intros p' h' X. exists w. split; [apply le_refl|]. destruct (hn h a) as [n|] eqn:E; injection X as <- <-; [|split; [exact H|constructor]].
    split; [|apply K, le_refl]. constructor; cbn.
    + intros b Hb. destruct (b =? a); [eauto|]. now apply (ho_node w h H).
    + intros b m. destruct (b =? a); [|apply (ho_hdr w h H)]. intros X. injection X as <-. apply F; [apply le_refl|]. now apply (ho_hdr w h H a).
    + apply (ho_len w h H).
    + apply (ho_arr w h H).
    + apply (ho_new w h H).
  - split; [exact I|]. intros p' h' X. injection X as <- <-. exists (grown_n w (nn h)). split; [apply le_n|]. split.
    + constructor; cbn.
      * intros b. destruct (Nat.eqb_spec b (nn h)) as [->|N]; [eauto|]. intros [Hb|Hb]; [|easy]. now apply (ho_node w h H).
      * intros b m. destruct (b =? nn h); [intros X; injection X as <-; exact HD|]. apply (ho_hdr w h H).
      * apply (ho_len w h H).
      * intros r x Hx. apply (ptr_le w); [apply le_n|]. now apply (ho_arr w h H r).
      * apply (ho_new w h H).
    + apply K; [apply le_n|]. left. cbn. auto.
  - destruct (ho_len w h H r i E) as [Li Lr]. split; [exact Li|]. intros p' h' X. injection X as <- <-. exists w. split; [apply le_refl|]. split; [exact H|].
    destruct (nth_error (ha h r) i) as [x|] eqn:EX; [|constructor]. apply K; [apply le_refl|]. apply (ho_arr w h H r). now apply nth_error_In with i.
  - destruct (ho_len w h H r i E) as [Li Lr]. split; [exact Li|]. intros p' h'. rewrite (proj2 (Nat.ltb_lt _ _) Li). intros X. injection X as <- <-.
    exists w. split; [apply le_refl|]. split; [|apply K, le_refl]. constructor; cbn.
    + apply (ho_node w h H).
    + apply (ho_hdr w h H).
    + intros q j Hq. destruct (Nat.eqb_spec q r) as [->|N]; [rewrite put_length|]; now apply (ho_len w h H).
    + intros q y. destruct (Nat.eqb_spec q r) as [->|N]; [|apply (ho_arr w h H)]. intros Hy. apply in_put in Hy. destruct Hy as [->|Hy]; [exact P|].
      now apply (ho_arr w h H r).
    + intros q Hq. destruct (Nat.eqb_spec q r) as [->|N]; [lia|]. now apply (ho_new w h H).
  - split; [exact I|]. intros p' h' X. injection X as <- <-.
    exists (if r <? na h then grown_a w r (length (ha h r)) else w). destruct (Nat.ltb_spec r (na h)) as [L|L].
    + split; [apply le_a|]. split; [|apply K; [apply le_a|cbn; auto]]. constructor; cbn.
      * apply (ho_node w h H).
      * intros a n E. apply (hdr_le w); [apply le_a|]. now apply (ho_hdr w h H a).
      * intros q j [Hq|[-> Hq]]; [now apply (ho_len w h H)|]. split; [exact Hq|exact L].
      * intros q x Hx. apply (ptr_le w); [apply le_a|]. now apply (ho_arr w h H q).
      * apply (ho_new w h H).
    + split; [apply le_refl|]. split; [exact H|]. apply K; [apply le_refl|]. rewrite (ho_new w h H r L). cbn. lia.
  - split; [exact I|]. intros p' h' X. injection X as <- <-. exists (grown_a w (na h) (length l)). split; [apply le_a|].
    split; [|apply K; [apply le_a|cbn; auto]]. constructor; cbn.
    + apply (ho_node w h H).
    + intros a n E. apply (hdr_le w); [apply le_a|]. now apply (ho_hdr w h H a).
    + intros q j [Hq|[-> Hq]]; [|rewrite Nat.eqb_refl; split; [exact Hq|lia]]. destruct (ho_len w h H q j Hq) as [L1 L2].
      destruct (Nat.eqb_spec q (na h)) as [->|N]; [lia|]. split; [exact L1|lia].
    + intros q x. destruct (Nat.eqb_spec q (na h)) as [->|N]; intros Hx; (apply (ptr_le w); [apply le_a|]); [|now apply (ho_arr w h H q)].
      rewrite Forall_forall in F. auto.
    + intros q Hq. destruct (Nat.eqb_spec q (na h)) as [->|N]; [lia|]. apply (ho_new w h H). lia.
Qed.

Definition any {A} : world -> A -> Prop := fun _ _ => True.
Lemma safe_any {A} (Q : world -> A -> Prop) w p : safe Q w p -> safe any w p.
Proof. apply safe_imp. unfold any. auto. Qed.
Lemma any_le {A} w w' p : le w w' -> safe (@any A) w p -> safe (@any A) w' p.
Proof. intros L S. eapply safe_le; eauto. Qed.
Lemma holds_sound w h : holds w h -> sound h.
Proof.
  intros H. constructor.
  - intros a n E. pose proof (ho_hdr w h H a n E) as X. destruct (sl_len (hkids n)) as [|l] eqn:L; [lia|].
    destruct (ho_len w h H (sl_arr (hkids n)) l) as [Y _]; [apply X; lia|lia].
  - intros r x Hx. apply (ptr_pointer w h x H). now apply (ho_arr w h H r).
  - apply (ho_new w h H).
Qed.
Definition start (h : heap) : world := World (fun a => exists n, hn h a = Some n) (fun r i => i < length (ha h r)).
Lemma sound_holds h : sound h -> holds (start h) h.
Proof.
  intros S. constructor; cbn; auto.
  - intros a n E i Hi. cbn. pose proof (so_hdr h S a n E). lia.
  - intros r i Hi. split; [exact Hi|]. destruct (le_lt_dec (na h) r) as [L|L]; [|exact L]. rewrite (so_new h S r L) in Hi. cbn in Hi. lia.
  - intros r x Hx. apply (so_arr h S r x Hx).
  - apply (so_new h S).
Qed.

Lemma turn_safe {A} w h (ps : list (prog A)) i : holds w h -> Forall (safe any w) ps ->
  exists w', le w w' /\ holds w' (snd (turn ps h i)) /\ Forall (safe any w') (fst (turn ps h i)).
Proof.
  intros H F. unfold turn. destruct (nth_error ps i) as [p|] eqn:E; [|exists w; auto using le_refl].
  assert (SP : safe any w p) by (rewrite Forall_forall in F; apply F; now apply nth_error_In with i).
  destruct (access_safe any w h p H SP) as [_ X].
  destruct (access p h) as [[p' h']|]; [|exists w; auto using le_refl]. destruct (X p' h' eq_refl) as (w' & L & H' & SP'). exists w'. cbn.
  split; [exact L|]. split; [exact H'|]. apply Forall_forall. intros q Hq. apply in_put in Hq. destruct Hq as [->|Hq]; [exact SP'|].
  apply any_le with w; auto. rewrite Forall_forall in F. auto.
Qed.
Theorem schedule_safe {A} sch h (ps : list (prog A)) : sound h -> (forall w, le (start h) w -> Forall (safe any w) ps) ->
  let (qs, g) := schedule sch ps h in sound g /\ forall p, In p qs -> legal g p.
Proof.
  intros S F. assert (X : exists w, holds w (snd (schedule sch ps h)) /\ Forall (safe any w) (fst (schedule sch ps h))).
  { induction sch as [|i sch IH] using rev_ind.
    - exists (start h). split; [now apply sound_holds|apply F, le_refl].
    - destruct IH as (w & H & G). unfold schedule in *. rewrite fold_left_app. cbn [fold_left].
      destruct (turn_safe w _ _ i H G) as (w' & _ & H' & G'). exists w'. auto. }
  destruct X as (w & H & G). destruct (schedule sch ps h) as [qs g]. cbn [fst snd] in *. split; [now apply holds_sound with w|].
  intros p Hp. rewrite Forall_forall in G. apply (access_safe any w g p H). auto.
Qed.
