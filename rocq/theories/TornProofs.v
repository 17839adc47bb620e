(** Programs whose accesses are split do what the whole ones do when the words of one kind never change. *)
From Coq Require Import List NArith ZArith Bool Arith Lia.
From Verif Require Import GoStr Node Heap HeapProofs HeapWalk HeapRace Torn.
Import ListNotations.
Open Scope nat_scope.

(** ** memories that hold the same *)
Definition heq (h h' : heap) : Prop := (forall a, hn h a = hn h' a) /\ (forall r, ha h r = ha h' r) /\ nn h = nn h' /\ na h = na h'.
Lemma heq_refl h : heq h h. Proof. repeat split. Qed.
Lemma heq_node h h' a n : heq h h' -> heq (set_node h a n) (set_node h' a n).
Proof. intros (A & B & C & D). repeat split; cbn; auto. intros b. destruct (b =? a); auto. Qed.
Lemma heq_stay h h' a n : heq h h' -> hn h' a = Some n -> heq h (set_node h' a n).
Proof. intros (A & B & C & D) E. repeat split; cbn; auto. intros b. destruct (Nat.eqb_spec b a) as [->|]; [congruence|auto]. Qed.
Lemma access_heq {A} (p : prog A) h h' p1 h1 : heq h h' -> access p h' = Some (p1, h1) -> exists h2, access p h = Some (p1, h2) /\ heq h2 h1.
Proof.
  intros E. pose proof E as (EN & EA & E3 & E4). destruct p as [x| | |a k|a f k|n k|r i k|r i x k|r k|l k]; cbn [access]; try discriminate.
  - rewrite EN. intros X. injection X as <- <-. eauto.
  - rewrite EN. destruct (hn h' a) as [n|]; intros X; injection X as <- <-; eexists; (split; [reflexivity|]); [now apply heq_node|exact E].
  - rewrite E3. intros X. injection X as <- <-. eexists. split; [reflexivity|]. repeat split; cbn; auto.
    intros b. rewrite E3. destruct (b =? nn h'); auto.
  - rewrite EA. intros X. injection X as <- <-. eauto.
  - rewrite EA. destruct (i <? length (ha h' r)); intros X; injection X as <- <-; eexists; (split; [reflexivity|]); [|exact E].
    repeat split; cbn; auto. intros b. destruct (b =? r); auto.
  - rewrite EA. intros X. injection X as <- <-. eauto.
  - rewrite E4. intros X. injection X as <- <-. eexists. split; [reflexivity|]. repeat split; cbn; auto.
    intros b. rewrite E4. destruct (b =? na h'); auto.
Qed.
Lemma access_grows {A} (p : prog A) h p' h' a n : access p h = Some (p', h') -> hn h a = Some n -> exists n', hn h' a = Some n'.
Proof.
  destruct p as [x| | |b k|b f k|m k|r i k|r i x k|r k|l k]; cbn [access]; try discriminate.
  - intros X E. injection X as <- <-. eauto.
  - destruct (hn h b) as [m|]; intros X E; injection X as <- <-; [|eauto]. cbn. destruct (a =? b); eauto.
  - intros X E. injection X as <- <-. cbn. destruct (a =? nn h); eauto.
  - intros X E. injection X as <- <-. eauto.
  - destruct (i <? length (ha h r)); intros X E; injection X as <- <-; eauto.
  - intros X E. injection X as <- <-. eauto.
  - intros X E. injection X as <- <-. eauto.
Qed.
Lemma turn_access {A} (ps : list (prog A)) h i p : nth_error ps i = Some p ->
  turn ps h i = match access p h with Some (p', h') => (put ps i p', h') | None => (ps, h) end.
Proof. unfold turn. now intros ->. Qed.

Section Proofs.
Variable T : Type.
Variable ty : hnode -> T.
Variable pre : hnode -> hnode -> hnode.
Hypothesis pre_ty : forall m n, ty m = ty n -> pre m n = n.
Notation torn := (torn ty pre).

(** the words never change, in any schedule *)
Definition steady {A} (ps : list (prog A)) (h : heap) : Prop :=
  forall sch i a n n', let (qs, g) := schedule sch ps h in
    hn g a = Some n -> hn (snd (turn qs g i)) a = Some n' -> ty n' = ty n.

(** between two accesses, [h] being the memory *)
Inductive mid {A} (h : heap) : prog A -> prog A -> Prop :=
| mid_torn p q : torn p q -> mid h p q
| mid_get_a a m n k k' : hn h a = Some n -> ty m = ty n -> (forall x, torn (k x) (k' x)) -> mid h (GetN a k) (GetN a (fun n => k' (pre m n)))
| mid_get_b a m n p k' : hn h a = Some n -> ty n = ty m -> torn p (k' m) -> mid h p (GetN a (fun n => k' (pre n m)))
| mid_upd_b a f n p q : hn h a = Some n -> ty (f n) = ty n -> respects T ty f -> torn p q -> mid h p (UpdN a (fun n => pre (f n) n) q).

Lemma mid_keep {A} h h' (p q : prog A) : (forall a n, hn h a = Some n -> exists n', hn h' a = Some n' /\ ty n' = ty n) -> mid h p q -> mid h' p q.
Proof.
  intros K M. destruct M as [p q M|a m n k k' E Y H|a m n p k' E Y H|a f n p q E Y R H].
  - now constructor.
  - destruct (K a n E) as (n' & E' & Y'). apply mid_get_a with n'; auto. congruence.
  - destruct (K a n E) as (n' & E' & Y'). apply mid_get_b with n'; auto. congruence.
  - destruct (K a n E) as (n' & E' & Y'). apply mid_upd_b with n'; auto. rewrite (R n' n Y'). congruence.
Qed.

(** one access of the split program is one or no access of the whole one *)
Lemma access_mid {A} hp hq (p q : prog A) q' hq' : heq hp hq -> mid hq p q ->
  (forall p' hp', access p hp = Some (p', hp') -> forall a n n', hn hp a = Some n -> hn hp' a = Some n' -> ty n' = ty n) ->
  access q hq = Some (q', hq') ->
  (heq hp hq' /\ mid hq' p q') \/ (exists p' hp', access p hp = Some (p', hp') /\ heq hp' hq' /\ mid hq' p' q').
Proof.
  intros E M S AQ. pose proof E as (EN & EA & E3 & E4).
  destruct M as [p q M|a m n k k' Ea Y H|a m n p k' Ea Y H|a f n p q Ea Y R H].
  - destruct M as [x| | |a k k' H|a k k' H|a k k' H|a f k k' H|a f k k' H|a f k k' R H|n k k' H|r i k k' H|r i x k k' H|r k k' H|l k k' H];
      cbn [access] in AQ; try discriminate AQ.
    + right. injection AQ as <- <-. cbn [access]. rewrite EN. eexists _, hp. split; [reflexivity|]. split; [exact E|]. constructor.
      destruct (hn hq a); [apply H|constructor].
    + destruct (hn hq a) as [n|] eqn:En; injection AQ as <- <-.
      * left. split; [exact E|]. apply mid_get_a with n; auto.
      * right. cbn [access]. rewrite EN, En. eexists _, hp. split; [reflexivity|]. split; [exact E|]. constructor. constructor.
    + right. cbn [access]. rewrite EN. destruct (hn hq a) as [n|] eqn:En; injection AQ as <- <-; eexists _, hp; (split; [reflexivity|]); (split; [exact E|]).
      * apply mid_get_b with n; auto.
      * constructor. constructor.
    + right. cbn [access]. rewrite EN. destruct (hn hq a) as [n|] eqn:En; injection AQ as <- <-; eexists; eexists; (split; [reflexivity|]).
      * split; [now apply heq_node|]. now constructor.
      * split; [exact E|]. constructor. constructor.
    + destruct (hn hq a) as [n|] eqn:En; injection AQ as <- <-.
      * left. assert (Y : ty (f n) = ty n).
        { cbn [access] in S. rewrite EN, En in S. apply (S _ _ eq_refl a n (f n)); [now rewrite EN|]. cbn. now rewrite Nat.eqb_refl. }
        rewrite (pre_ty _ _ Y). split; [now apply heq_stay|]. constructor. now constructor.
      * right. cbn [access]. rewrite EN, En. eexists _, hp. split; [reflexivity|]. split; [exact E|]. constructor. constructor.
    + right. cbn [access]. rewrite EN. destruct (hn hq a) as [n|] eqn:En; injection AQ as <- <-; eexists; eexists; (split; [reflexivity|]).
      * assert (Y : ty (f n) = ty n).
        { cbn [access] in S. rewrite EN, En in S. apply (S _ _ eq_refl a n (f n)); [now rewrite EN|]. cbn. now rewrite Nat.eqb_refl. }
        rewrite (pre_ty n (f n)) by congruence. split; [now apply heq_node|]. apply mid_upd_b with (f n); auto.
        cbn. now rewrite Nat.eqb_refl.
      * split; [exact E|]. constructor. constructor.
    + right. destruct (access_heq (NewN n k') hp hq q' hq' E AQ) as (h2 & A2 & E2). cbn [access] in A2 |- *. injection A2 as <- <-.
      eexists; eexists; split; [reflexivity|]. split; [exact E2|]. constructor. apply H.
    + right. injection AQ as <- <-. cbn [access]. rewrite EA. eexists _, hp. split; [reflexivity|]. split; [exact E|]. constructor.
      destruct (nth_error _ _); [apply H|constructor].
    + right. destruct (access_heq (SetA r i x k') hp hq q' hq' E AQ) as (h2 & A2 & E2). cbn [access] in A2 |- *. 
      destruct (i <? length (ha hp r)); injection A2 as <- <-; eexists; eexists; (split; [reflexivity|]); (split; [exact E2|]); constructor; [exact H|constructor].
    + right. injection AQ as <- <-. cbn [access]. rewrite EA. eexists _, hp. split; [reflexivity|]. split; [exact E|]. constructor. apply H.
    + right. destruct (access_heq (NewA l k') hp hq q' hq' E AQ) as (h2 & A2 & E2). cbn [access] in A2 |- *. injection A2 as <- <-.
      eexists; eexists; split; [reflexivity|]. split; [exact E2|]. constructor. apply H.
  - right. cbn [access] in *. rewrite Ea in AQ. injection AQ as <- <-. rewrite EN, Ea. eexists _, hp. split; [reflexivity|]. split; [exact E|].
    constructor. rewrite (pre_ty m n Y). apply H.
  - left. cbn [access] in AQ. rewrite Ea in AQ. injection AQ as <- <-. split; [exact E|]. constructor. now rewrite (pre_ty n m Y).
  - left. cbn [access] in AQ. rewrite Ea in AQ. injection AQ as <- <-. rewrite (pre_ty _ _ Y). split; [now apply heq_stay|]. now constructor.
Qed.

Lemma Forall2_put2 {A B} (P : A -> B -> Prop) ls ps i x y : Forall2 P ls ps -> P x y -> Forall2 P (put ls i x) (put ps i y).
Proof. intros F H. revert i. induction F as [|a b ls ps Hp F IH]; intros [|i]; cbn; constructor; auto. Qed.
Lemma Forall2_put1 {A B} (P : A -> B -> Prop) ls ps i x y : Forall2 P ls ps -> nth_error ls i = Some x -> P x y -> Forall2 P ls (put ps i y).
Proof.
  intros F. revert i. induction F as [|a b ls ps Hp F IH]; intros [|i] E H; cbn in *; constructor; auto; try discriminate. now injection E as ->.
Qed.
Lemma Forall2_nth {A B} (P : A -> B -> Prop) l r i b : Forall2 P l r -> nth_error r i = Some b -> exists a, nth_error l i = Some a /\ P a b.
Proof. intros F. revert i. induction F as [|x y l r H F IH]; intros [|i] E; cbn in *; try discriminate; [|auto]. injection E as <-. eauto. Qed.
Lemma schedule_snoc {A} sch i (ps : list (prog A)) h : schedule (sch ++ [i]) ps h = turn (fst (schedule sch ps h)) (snd (schedule sch ps h)) i.
Proof. unfold schedule. now rewrite fold_left_app. Qed.

Theorem torn_runs {A} (ps qs : list (prog A)) h sch : Forall2 torn ps qs -> steady ps h ->
  exists sch', let (ps', hp) := schedule sch' ps h in let (qs', hq) := schedule sch qs h in heq hp hq /\ Forall2 (mid hq) ps' qs'.
Proof.
  intros F S. induction sch as [|i sch IH] using rev_ind.
  - exists []. cbn. split; [apply heq_refl|]. clear S. induction F; constructor; auto. now constructor.
  - destruct IH as (sch' & IH). rewrite schedule_snoc. destruct (schedule sch qs h) as [qs1 hq]. cbn [fst snd].
    destruct (schedule sch' ps h) as [ps1 hp] eqn:ES. destruct IH as [E M].
    unfold turn at 1. destruct (nth_error qs1 i) as [q|] eqn:Eq; [|exists sch'; rewrite ES; auto].
    destruct (access q hq) as [[q' hq']|] eqn:AQ; [|exists sch'; rewrite ES; auto].
    destruct (Forall2_nth _ _ _ _ _ M Eq) as (p & Ep & Mp).
    assert (ST : forall p' hp', access p hp = Some (p', hp') -> forall a n n', hn hp a = Some n -> hn hp' a = Some n' -> ty n' = ty n).
    { intros p' hp' AP a n n' E1 E2. specialize (S sch' i a n n'). rewrite ES in S. rewrite (turn_access ps1 hp i p Ep), AP in S. cbn in S. auto. }
    destruct (access_mid hp hq p q q' hq' E Mp ST AQ) as [(E' & M')|(p' & hp' & AP & E' & M')].
    + exists sch'. rewrite ES. split; [exact E'|]. apply (Forall2_put1 _ _ _ _ p); auto.
      eapply Forall2_impl; [|exact M]. intros x y. apply mid_keep. intros a n En. destruct (access_grows _ _ _ _ _ _ AQ En) as (n' & En').
      exists n'. split; auto. destruct E as (E1 & _). destruct E' as (E2 & _). rewrite <- E1 in En. rewrite <- E2 in En'. congruence.
    + exists (sch' ++ [i]). rewrite schedule_snoc, ES. cbn [fst snd]. rewrite (turn_access ps1 hp i p Ep), AP.
      split; [exact E'|]. apply Forall2_put2; [|exact M'].
      eapply Forall2_impl; [|exact M]. intros x y. apply mid_keep. intros a n En. destruct (access_grows _ _ _ _ _ _ AQ En) as (n' & En').
      exists n'. split; auto. destruct E as (E1 & _). destruct E' as (E2 & _). rewrite <- E1 in En. rewrite <- E2 in En'. eapply ST; eauto.
Qed.
(** a split program that has ended has ended as the whole one *)
Lemma mid_ret {A} h (p : prog A) x : mid h p (Ret x) -> p = Ret x.
Proof. intros M. inversion M as [? ? H| | |]; subst. inversion H; reflexivity. Qed.
Lemma mid_die {A} h (p : prog A) : mid h p Die -> p = Die.
Proof. intros M. inversion M as [? ? H| | |]; subst. inversion H; reflexivity. Qed.
Lemma mid_spin {A} h (p : prog A) : mid h p Spin -> p = Spin.
Proof. intros M. inversion M as [? ? H| | |]; subst. inversion H; reflexivity. Qed.

Lemma torn_same {A} (p : prog A) : torn p p.
Proof. induction p; constructor; auto. Qed.
Lemma torn_tear {A} (p : prog A) : torn p (tear pre p).
Proof.
  induction p as [x| | |a k IH|a f k IH|n k IH|r i k IH|r i x k IH|r k IH|l k IH]; cbn [tear]; try (constructor; auto; fail).
  exact (to_get_a T ty pre a k (fun n => tear pre (k n)) IH).
Qed.
End Proofs.
