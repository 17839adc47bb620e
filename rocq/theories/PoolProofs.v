(** Objects from a pool: nobody sees what others do with theirs. *)
From Coq Require Import List NArith Bool Arith Lia.
From Verif Require Import GoStr Utf8 Node Trie Pools.
Import ListNotations.
Open Scope nat_scope.

Section Own.
Context {V : Type}.
Variable clean : V -> Prop.     (* what an object in the pool may be like *)
Definition held := nat -> option V.
Definition take (s : held) (o : nat) (v : option V) : held := fun a => if a =? o then v else s a.

(** [p] holds the objects of [s], with their values; after [n] steps at most it has ended, with a result that satisfies [Q] *)
Inductive ok {A} (Q : A -> Prop) : nat -> held -> pprog V A -> Prop :=
| ok_ret n s x : Q x -> ok Q n s (PRet x)
| ok_get n s k : (forall o v, s o = None -> clean v -> ok Q n (take s o (Some v)) (k o)) -> ok Q (S n) s (PGet k)
| ok_upd n s o v f k : s o = Some v -> ok Q n (take s o (Some (f v))) k -> ok Q (S n) s (PUpd o f k)
| ok_read n s o v k : s o = Some v -> ok Q n s (k v) -> ok Q (S n) s (PRead o k)
| ok_ask n s k : (forall c, ok Q n s (k c)) -> ok Q (S n) s (PAsk k)
| ok_put n s o v k : s o = Some v -> clean v -> ok Q n (take s o None) k -> ok Q (S n) s (PPut o k).

Lemma take_same s o v : take s o v o = v.
Proof. unfold take. now rewrite Nat.eqb_refl. Qed.
Lemma take_other s o v a : a <> o -> take s o v a = s a.
Proof. unfold take. intros H. now destruct (Nat.eqb_spec a o). Qed.
Lemma take_ext s s' o v : (forall a, s a = s' a) -> forall a, take s o v a = take s' o v a.
Proof. intros H a. unfold take. now destruct (a =? o). Qed.
Lemma ok_weak {A} (Q Q' : A -> Prop) n s p : ok Q n s p -> forall m s', n <= m -> (forall a, s a = s' a) -> (forall x, Q x -> Q' x) -> ok Q' m s' p.
Proof.
  intros H. induction H as [n s x Hx|n s k _ IH|n s o v f k E _ IH|n s o v k E _ IH|n s k _ IH|n s o v k E C _ IH]; intros m s' L X HQ.
  - constructor. auto.
  - destruct m as [|m]; [lia|]. constructor. intros o v N C. apply (IH o v); [now rewrite X|exact C|lia|now apply take_ext|exact HQ].
  - destruct m as [|m]; [lia|]. apply ok_upd with v; [now rewrite <- X|]. apply IH; [lia|now apply take_ext|exact HQ].
  - destruct m as [|m]; [lia|]. apply ok_read with v; [now rewrite <- X|]. apply IH; auto. lia.
  - destruct m as [|m]; [lia|]. constructor. intros c. apply IH; auto. lia.
  - destruct m as [|m]; [lia|]. apply ok_put with v; [now rewrite <- X|exact C|]. apply IH; [lia|now apply take_ext|exact HQ].
Qed.
Lemma ok_more {A} (Q : A -> Prop) n m s p : ok Q n s p -> n <= m -> ok Q m s p.
Proof. intros H L. apply ok_weak with (1 := H); auto. Qed.
Lemma ok_then {A B} (Q : A -> Prop) (Q' : B -> Prop) n m s p q : ok Q n s p -> (forall x s', Q x -> ok Q' m s' (q x)) ->
  ok Q' (n + m) s (pthen p q).
Proof.
  intros H HQ. induction H as [n s x Hx|n s k _ IH|n s o v f k E _ IH|n s o v k E _ IH|n s k _ IH|n s o v k E C _ IH]; cbn [pthen plus].
  - apply ok_more with m; [auto|lia].
  - constructor. intros o v N C. now apply IH.
  - apply ok_upd with v; auto.
  - apply ok_read with v; auto.
  - constructor. auto.
  - apply ok_put with v; auto.
Qed.

(** ** all together *)
Section World.
Context {A : Type}.
Variable fresh : V.
Hypothesis fresh_clean : clean fresh.
Variable Q : nat -> A -> Prop.
Record inv (w : world V A) (n : nat -> nat) (s : nat -> held) : Prop := {
  i_ok : forall i p, nth_error (w_procs w) i = Some p -> ok (Q i) (n i) (s i) p;
  i_own : forall i o v, s i o = Some v -> w_mem w o = v /\ o < w_next w /\ ~ In o (w_pool w);
  i_excl : forall i j o v, i <> j -> s i o = Some v -> s j o = None;
  i_dup : NoDup (w_pool w);
  i_pool : forall o, In o (w_pool w) -> o < w_next w /\ clean (w_mem w o) }.

Lemma del_in {B} (l : list B) c x : In x (del c l) -> In x l.
Proof. revert c. induction l as [|y l IH]; intros [|c]; cbn; auto. intros [->|H]; eauto. Qed.
Lemma del_nodup {B} (l : list B) c : NoDup l -> NoDup (del c l).
Proof.
  intros N. revert c. induction N as [|x l H N IH]; intros [|c]; cbn; try constructor; auto. intros X. apply H. now apply del_in in X.
Qed.
Lemma del_out {B} (l : list B) c x : NoDup l -> nth_error l c = Some x -> ~ In x (del c l).
Proof.
  intros N. revert c. induction N as [|y l H N IH]; intros [|c]; cbn; try discriminate.
  - intros X. injection X as <-. exact H.
  - intros X [->|Y]; [apply H; now apply nth_error_In with c|now apply (IH c)].
Qed.
Lemma sub_nth_same {B} (l : list B) i x y : nth_error l i = Some y -> nth_error (sub_nth i x l) i = Some x.
Proof. revert i. induction l as [|z l IH]; intros [|i]; cbn; try discriminate; auto. Qed.
Lemma sub_nth_other {B} (l : list B) i j x : i <> j -> nth_error (sub_nth i x l) j = nth_error l j.
Proof. revert i j. induction l as [|z l IH]; intros [|i] [|j] H; cbn; auto; congruence. Qed.

Definition upto {B} (f : nat -> B) (i : nat) (x : B) : nat -> B := fun j => if j =? i then x else f j.
Lemma upto_same {B} (f : nat -> B) i x : upto f i x i = x.
Proof. unfold upto. now rewrite Nat.eqb_refl. Qed.
Lemma upto_other {B} (f : nat -> B) i x j : j <> i -> upto f i x j = f j.
Proof. unfold upto. intros H. now destruct (Nat.eqb_spec j i). Qed.

(** a step of goroutine [i]: what has to be shown *)
Lemma step_inv w n s i p p' mem pool next si k : inv w n s -> nth_error (w_procs w) i = Some p -> ok (Q i) k si p' ->
  (forall o v, si o = Some v -> mem o = v /\ o < next /\ ~ In o pool /\ forall j, j <> i -> s j o = None) ->
  (forall j o v, j <> i -> s j o = Some v -> mem o = v /\ o < next /\ ~ In o pool) ->
  NoDup pool -> (forall o, In o pool -> o < next /\ clean (mem o)) ->
  inv (World mem pool next (sub_nth i p' (w_procs w))) (upto n i k) (upto s i si).
Proof.
  intros I E K H1 H2 H3 H4. constructor; cbn [w_procs w_mem w_pool w_next]; auto.
  - intros j q Ej. destruct (Nat.eq_dec j i) as [->|N].
    + rewrite (sub_nth_same _ _ _ _ E) in Ej. injection Ej as <-. now rewrite !upto_same.
    + rewrite sub_nth_other in Ej by auto. rewrite !upto_other by auto. now apply (i_ok _ _ _ I).
  - intros j o v. destruct (Nat.eq_dec j i) as [->|N].
    + rewrite upto_same. intros X. destruct (H1 o v X) as (Y1 & Y2 & Y3 & _). auto.
    + rewrite upto_other by auto. now apply H2.
  - intros a b o v N. destruct (Nat.eq_dec a i) as [->|Na]; [|destruct (Nat.eq_dec b i) as [->|Nb]].
    + rewrite upto_same, upto_other by auto. intros X. destruct (H1 o v X) as (_ & _ & _ & Y). auto.
    + rewrite upto_same, upto_other by auto. intros X. destruct (si o) as [v'|] eqn:Y; [|reflexivity].
      destruct (H1 o v' Y) as (_ & _ & _ & Z). rewrite Z in X; auto. discriminate.
    + rewrite !upto_other by auto. apply (i_excl _ _ _ I); auto.
Qed.
Lemma store_same (m : nat -> V) o v : store_at m o v o = v.
Proof. unfold store_at. now rewrite Nat.eqb_refl. Qed.
Lemma store_other (m : nat -> V) o v a : a <> o -> store_at m o v a = m a.
Proof. unfold store_at. intros H. now destruct (Nat.eqb_spec a o). Qed.

Definition done (w : world V A) (i : nat) : Prop := exists x, nth_error (w_procs w) i = Some (PRet x).
Lemma happen_inv e w n s : inv w n s -> exists n' s', inv (happen fresh e w) n' s' /\
  forall i, (done w i -> done (happen fresh e w) i) /\
    (i < length (w_procs w) -> done (happen fresh e w) i \/ n' i + match e with Go j _ => if j =? i then 1 else 0 | Drop _ => 0 end = n i).
Proof.
  intros I. destruct e as [i c|c]; cbn [happen].
  2: { exists n, s. split; [|intros; split; [auto|right; lia]]. constructor; cbn.
       - apply (i_ok _ _ _ I).
       - intros i o v X. destruct (i_own _ _ _ I i o v X) as (Y1 & Y2 & Y3). split; [auto|split; [auto|]]. intros Z. apply Y3. now apply del_in in Z.
       - apply (i_excl _ _ _ I).
       - apply del_nodup, (i_dup _ _ _ I).
       - intros o Ho. apply del_in in Ho. now apply (i_pool _ _ _ I). }
  assert (FIN : forall mem pool next p p' k si, nth_error (w_procs w) i = Some p -> n i = S k ->
    (forall x, p <> PRet x) ->
    inv (World mem pool next (sub_nth i p' (w_procs w))) (upto n i k) (upto s i si) ->
    exists n' s', inv (World mem pool next (sub_nth i p' (w_procs w))) n' s' /\
      forall j, (done w j -> done (World mem pool next (sub_nth i p' (w_procs w))) j) /\
        (j < length (w_procs w) -> done (World mem pool next (sub_nth i p' (w_procs w))) j \/ n' j + (if i =? j then 1 else 0) = n j)).
  { intros mem pool next p p' k si E En NR IV. exists (upto n i k), (upto s i si). split; [exact IV|]. intros j. split.
    - intros (x & X). destruct (Nat.eq_dec j i) as [->|N]; [rewrite E in X; injection X as X; destruct (NR _ X)|].
      exists x. cbn. rewrite sub_nth_other by auto. exact X.
    - intros _. right. destruct (Nat.eqb_spec i j) as [->|N]; [rewrite upto_same; lia|rewrite upto_other by auto; lia]. }
  destruct (nth_error (w_procs w) i) as [p|] eqn:E.
  2: { exists n, s. split; [exact I|]. intros j. split; [auto|]. intros L. right.
       destruct (Nat.eqb_spec i j) as [->|N]; [apply nth_error_None in E; lia|lia]. }
  pose proof (i_ok _ _ _ I i p E) as K. remember (n i) as m0 eqn:Em. remember (s i) as si eqn:Es.
  assert (OW : forall o v, si o = Some v -> w_mem w o = v /\ o < w_next w /\ ~ In o (w_pool w) /\ forall j, j <> i -> s j o = None).
  { intros o v X. rewrite Es in X. destruct (i_own _ _ _ I i o v X) as (Y1 & Y2 & Y3). repeat split; auto.
    intros j N. apply (i_excl _ _ _ I i j o v); auto. }
  assert (OT : forall j o v, j <> i -> s j o = Some v -> w_mem w o = v /\ o < w_next w /\ ~ In o (w_pool w))
    by (intros j o v _; apply (i_own _ _ _ I)).
  pose proof (i_dup _ _ _ I) as ND. pose proof (i_pool _ _ _ I) as PL.
  destruct K as [m si x Hx|m si k H|m si o v f k Eo H|m si o v k Eo H|m si k H|m si o v k Eo C H]; cbn.
  - exists n, s. split; [exact I|]. intros j. split; [auto|]. intros L. destruct (Nat.eqb_spec i j) as [->|N]; [left; now exists x|right; lia].
  - destruct (nth_error (w_pool w) c) as [o|] eqn:Ec.
    + pose proof (nth_error_In _ _ Ec) as Hin. destruct (PL o Hin) as [Lo Co].
      assert (NO : forall j, s j o = None).
      { intros j. destruct (s j o) as [v|] eqn:X; [|reflexivity]. destruct (i_own _ _ _ I j o v X) as (_ & _ & Y). now destruct Y. }
      eapply FIN; [reflexivity|reflexivity|discriminate|]. eapply step_inv with (si := take si o (Some (w_mem w o))); [exact I|exact E|..].
      * apply H; [now rewrite Es|exact Co].
      * intros a v. destruct (Nat.eq_dec a o) as [->|N].
        -- rewrite take_same. intros X. injection X as <-. repeat split; auto. now apply del_out.
        -- rewrite take_other by auto. intros X. destruct (OW a v X) as (Y1 & Y2 & Y3 & Y4). repeat split; auto. intros Z. apply Y3. now apply del_in in Z.
      * intros j a v N X. destruct (OT j a v N X) as (Y1 & Y2 & Y3). repeat split; auto. intros Z. apply Y3. now apply del_in in Z.
      * now apply del_nodup.
      * intros a Ha. apply del_in in Ha. auto.
    + set (o := w_next w).
      assert (NO : forall j, s j o = None).
      { intros j. destruct (s j o) as [v|] eqn:X; [|reflexivity]. destruct (i_own _ _ _ I j o v X) as (_ & Y & _). unfold o in Y. lia. }
      assert (NP : ~ In o (w_pool w)) by (intros X; apply PL in X; unfold o in X; lia).
      eapply FIN; [reflexivity|reflexivity|discriminate|]. eapply step_inv with (si := take si o (Some fresh)); [exact I|exact E|..].
      * apply H; [now rewrite Es|exact fresh_clean].
      * intros a v. destruct (Nat.eq_dec a o) as [->|N].
        -- rewrite take_same, store_same. intros X. injection X as <-. repeat split; auto.
        -- rewrite take_other, store_other by auto. intros X. destruct (OW a v X) as (Y1 & Y2 & Y3 & Y4). repeat split; auto.
      * intros j a v N X. destruct (OT j a v N X) as (Y1 & Y2 & Y3). rewrite store_other; [auto|]. intros ->. unfold o in Y2. lia.
      * exact ND.
      * intros a Ha. destruct (PL a Ha) as [L1 L2]. rewrite store_other; [auto|]. intros ->. unfold o in L1. lia.
  - destruct (OW o v Eo) as (M1 & M2 & M3 & M4).
    eapply FIN; [reflexivity|reflexivity|discriminate|]. eapply step_inv with (si := take si o (Some (f v))); [exact I|exact E|exact H|..].
    + intros a u. destruct (Nat.eq_dec a o) as [->|N].
      * rewrite take_same, store_same. intros X. injection X as <-. rewrite M1. auto.
      * rewrite take_other, store_other by auto. apply OW.
    + intros j a u N X. destruct (OT j a u N X) as (Y1 & Y2 & Y3). rewrite store_other; [auto|]. intros ->. rewrite M4 in X; auto. discriminate.
    + exact ND.
    + intros a Ha. rewrite store_other; [auto|]. intros ->. auto.
  - destruct (OW o v Eo) as (M1 & _). rewrite M1.
    eapply FIN; [reflexivity|reflexivity|discriminate|]. eapply step_inv with (si := si); [exact I|exact E|exact H|auto..].
  - eapply FIN; [reflexivity|reflexivity|discriminate|]. eapply step_inv with (si := si); [exact I|exact E|apply H|auto..].
  - destruct (OW o v Eo) as (M1 & M2 & M3 & M4).
    eapply FIN; [reflexivity|reflexivity|discriminate|]. eapply step_inv with (si := take si o None); [exact I|exact E|exact H|..].
    + intros a u. destruct (Nat.eq_dec a o) as [->|N]; [rewrite take_same; discriminate|].
      rewrite take_other by auto. intros X. destruct (OW a u X) as (Y1 & Y2 & Y3 & Y4). repeat split; auto. intros [Z|Z]; auto.
    + intros j a u N X. destruct (OT j a u N X) as (Y1 & Y2 & Y3). repeat split; auto. intros [->|Z]; auto. rewrite M4 in X; auto. discriminate.
    + now constructor.
    + intros a [<-|Ha]; auto. rewrite M1. auto.
Qed.

(** the number of steps of goroutine [i] *)
Fixpoint turns (i : nat) (es : list event) : nat :=
  match es with
  | [] => 0
  | Go j _ :: es => (if j =? i then 1 else 0) + turns i es
  | Drop _ :: es => turns i es
  end.
Lemma happen_len e (w : world V A) : length (w_procs (happen fresh e w)) = length (w_procs w).
Proof.
  assert (L : forall B i (x : B) l, length (sub_nth i x l) = length l) by (intros B i x l; revert i; induction l; intros [|i]; cbn; auto).
  destruct e as [i c|c]; cbn; [|reflexivity]. destruct (nth_error (w_procs w) i) as [[]|]; cbn; auto.
  destruct (nth_error (w_pool w) c); cbn; auto.
Qed.
Lemma happens_inv es : forall w n s, inv w n s -> exists n' s', inv (happens fresh es w) n' s' /\
  forall i, i < length (w_procs w) -> done (happens fresh es w) i \/ n' i + turns i es = n i.
Proof.
  unfold happens. induction es as [|e es IH]; intros w n s I; cbn [fold_left].
  - exists n, s. split; [exact I|]. intros i _. right. cbn. lia.
  - destruct (happen_inv e w n s I) as (n1 & s1 & I1 & D1). destruct (IH _ _ _ I1) as (n2 & s2 & I2 & D2).
    exists n2, s2. split; [exact I2|]. intros i L. destruct (D1 i) as [_ D]. specialize (D L).
    assert (DD : forall es w n s, inv w n s -> done w i -> done (fold_left (fun w e => happen fresh e w) es w) i).
    { clear - fresh_clean. induction es as [|e es IH]; intros w n s I H; [exact H|]. cbn [fold_left].
      destruct (happen_inv e w n s I) as (n1 & s1 & I1 & D1). apply IH with n1 s1; auto. now apply D1. }
    destruct D as [D|D]; [left; now apply DD with n1 s1|].
    destruct (D2 i) as [X|X]; [now rewrite happen_len|now left|]. right. destruct e as [j c|c]; cbn [turns]; lia.
Qed.
End World.
Lemma pool_safe {A} fresh (Q : nat -> A -> Prop) (n : nat -> nat) ps es : clean fresh ->
  (forall i p, nth_error ps i = Some p -> ok (Q i) (n i) (fun _ => None) p) ->
  let w := happens fresh es (begin fresh ps) in
  (forall o, In o (w_pool w) -> clean (w_mem w o)) /\ NoDup (w_pool w) /\ length (w_procs w) = length ps /\
  (forall i x, nth_error (w_procs w) i = Some (PRet x) -> Q i x) /\
  (forall i, i < length ps -> n i <= turns i es -> exists x, nth_error (w_procs w) i = Some (PRet x)).
Proof.
  intros FC OK. assert (I : inv Q (begin fresh ps) n (fun _ _ => None)).
  { constructor; cbn; try easy. constructor. }
  destruct (happens_inv fresh FC Q es _ _ _ I) as (n' & s' & I' & D). cbn zeta.
  assert (LEN : forall es (w : world V A), length (w_procs (happens fresh es w)) = length (w_procs w)).
  { clear. unfold happens. intros es. induction es as [|e es IH]; intros w; [reflexivity|]. cbn [fold_left]. rewrite IH. apply happen_len. }
  split; [|split; [|split; [|split]]].
  - intros o Ho. apply (i_pool _ _ _ _ I' o Ho).
  - apply (i_dup _ _ _ _ I').
  - rewrite LEN. reflexivity.
  - intros i x E. pose proof (i_ok _ _ _ _ I' i _ E) as K. now inversion K.
  - intros i L T. destruct (D i L) as [X|X]; [exact X|]. destruct (nth_error (w_procs (happens fresh es (begin fresh ps))) i) as [p|] eqn:E.
    + pose proof (i_ok _ _ _ _ I' i _ E) as K. assert (Z : n' i = 0) by lia. rewrite Z in K. inversion K; subst. eauto.
    + apply nth_error_None in E. rewrite LEN in E. cbn in E. lia.
Qed.
End Own.

(** ** buffers: in the pool they are empty *)
Definition empty (v : buffer) : Prop := v = [].
Lemma bytes_ok {A} (Q : A -> Prop) o c : forall n s v k, s o = Some v ->
  (forall s', s' o = Some (v ++ c) -> ok empty Q n s' k) -> ok empty Q (length c + n) s (p_bytes o c k).
Proof.
  induction c as [|x c IH]; intros n s v k E H; cbn [p_bytes length plus].
  - apply H. now rewrite app_nil_r.
  - apply ok_upd with v; auto. apply IH with (v ++ [x]); [apply take_same|]. intros s' E'. apply H. now rewrite E', <- app_assoc.
Qed.
Lemma parts_ok {A} (Q : A -> Prop) d o args : forall n s v w (q : unit -> bprog A), s o = Some v ->
  (forall s', s' o = Some (v ++ join_loop d w args) -> ok empty Q n s' (q tt)) ->
  ok empty Q (length (join_loop d w args) + n) s (pthen (p_parts d w args o) q).
Proof.
  induction args as [|it rest IH]; intros n s v w q E H; cbn [p_parts join_loop length plus].
  - apply H. cbn. now rewrite app_nil_r.
  - cbn [join_loop] in H. destruct (is_nil it); [now apply IH with v|].
    assert (X : forall c k, pthen (p_bytes o c k) q = p_bytes o c (pthen k q)) by (induction c as [|? ? IHc]; intros; [reflexivity|cbn; now rewrite IHc]).
    rewrite X. replace (length _ + n) with (length ((if w then [delim_byte d] else []) ++ it) + (length (join_loop d true rest) + n))
      by (rewrite !app_length; lia).
    apply bytes_ok with v; auto. intros s' E'. apply IH with (1 := E'). intros s2 E2. apply H. rewrite E2. now rewrite !app_assoc.
Qed.
Lemma back_ok {A} (Q : A -> Prop) n s o v k : s o = Some v -> (forall s, ok empty Q n s k) -> ok empty Q (3 + n) s (p_giveBack o k).
Proof.
  intros E K. unfold p_giveBack. apply ok_upd with v; auto. constructor. intros c. destruct (_ <? _)%N.
  - apply ok_put with []; [apply take_same|reflexivity|apply K].
  - apply ok_more with n; auto.
Qed.
Lemma use_ok n s (fn : nat -> bprog unit) r :
  (forall o s m q, s o = Some [] -> (forall s', s' o = Some r -> ok empty (eq r) m s' (q tt)) -> ok empty (eq r) (n + m) s (pthen (fn o) q)) ->
  ok empty (eq r) (5 + n) s (p_UsePool fn).
Proof.
  intros H. unfold p_UsePool. constructor. intros o v _ ->. apply ok_more with (n := n + 4); [|lia].
  apply H; [apply take_same|]. intros s' E. apply ok_read with r; auto. apply (back_ok _ 0) with r; auto. intros. now constructor.
Qed.
Lemma Join_ok d args : forall s, ok empty (eq (Join d args)) (5 + length (Join d args)) s (p_Join d args).
Proof.
  induction args as [|a rest IH]; intros s; [now constructor|]. cbn [Join p_Join]. destruct rest as [|b rest]; [now constructor|].
  destruct (is_nil a); [apply IH|]. apply use_ok. intros o s0 m q E H. apply parts_ok with []; auto.
Qed.
Lemma join1_ok d pre args s : ok empty (eq (join1 d pre args)) (5 + length (join1 d pre args)) s (p_join1 d pre args).
Proof.
  unfold join1, p_join1. destruct (is_nil pre); [apply Join_ok|]. destruct args as [|a rest]; [now constructor|]. cbn [is_nil].
  set (r := pre ++ _). constructor. intros o v _ ->.
  apply ok_more with (n := length pre + (length (join_loop d true (a :: rest)) + 4)); [|unfold r; rewrite app_length; lia].
  apply bytes_ok with []; [apply take_same|]. intros s1 E1. cbn [app] in E1. apply parts_ok with (1 := E1). intros s2 E2.
  apply ok_read with r; auto. apply (back_ok _ 0) with r; auto. intros. now constructor.
Qed.
Lemma storeJoin_ok d args : forall s, ok empty (eq (Join d args)) (4 + length (Join d args)) s (p_storeJoin d args).
Proof.
  induction args as [|a rest IH]; intros s; [now constructor|]. cbn [Join p_storeJoin]. destruct rest as [|b rest]; [now constructor|].
  destruct (is_nil a); [apply IH|]. set (r := join_loop d false (a :: b :: rest)). constructor. intros o v _ ->.
  apply ok_more with (n := length r + 3); [|lia]. apply parts_ok with []; [apply take_same|]. intros s' E. cbn [app] in E. fold r in E.
  apply ok_read with r; auto. apply ok_upd with r; auto. apply ok_put with []; [apply take_same|reflexivity|]. now constructor.
Qed.
Lemma writes_ok {A} (Q : A -> Prop) o l : forall n s v (q : unit -> bprog A), s o = Some v ->
  (forall s', s' o = Some (v ++ concat l) -> ok empty Q n s' (q tt)) -> ok empty Q (length (concat l) + n) s (pthen (p_writes o l) q).
Proof.
  induction l as [|c l IH]; intros n s v q E H; cbn [p_writes concat length plus].
  - apply H. cbn. now rewrite app_nil_r.
  - assert (X : forall c k, pthen (p_bytes o c k) q = p_bytes o c (pthen k q)) by (intros c0; induction c0 as [|? ? IHc]; intros; [reflexivity|cbn; now rewrite IHc]).
    rewrite X, app_length, <- Nat.add_assoc. apply bytes_ok with v; auto. intros s' E'. apply IH with (1 := E'). intros s2 E2. apply H.
    rewrite E2. cbn [concat]. now rewrite !app_assoc.
Qed.
(** what a job gives *)
Definition job_gives (j : job) : gostring :=
  match j with JJoin d args => Join d args | JJoin1 d pre args => join1 d pre args | JUse l => concat l end.
Definition job_cost (j : job) : nat := 5 + length (job_gives j).
Lemma job_ok j s : ok empty (eq (job_gives j)) (job_cost j) s (p_job j).
Proof.
  destruct j as [d args|d pre args|l]; cbn [p_job]; [apply Join_ok|apply join1_ok|].
  apply use_ok. intros o s0 m q E H. apply writes_ok with []; auto.
Qed.
Lemma all_ok {V A B} clean (f : A -> pprog V B) (g : A -> B) (cost : A -> nat) : (forall x s, ok clean (eq (g x)) (cost x) s (f x)) ->
  forall l s, ok clean (eq (map g l)) (list_sum (map cost l)) s (p_all f l).
Proof.
  intros H. induction l as [|x l IH]; intros s; cbn [p_all map]; [now constructor|]. cbn [list_sum fold_right].
  eapply ok_then; [apply H|]. intros y s1 <-. fold (list_sum (map cost l)). rewrite <- (Nat.add_0_r (list_sum _)).
  eapply ok_then; [apply IH|]. intros ys s2 <-. now constructor.
Qed.

(** goroutines of any jobs *)
Lemma buffers_safe {A} (f : A -> bprog gostring) (g : A -> gostring) (cost : A -> nat) : (forall x s, ok empty (eq (g x)) (cost x) s (f x)) ->
  forall (jobs : list (list A)) es, let w := happens [] es (begin [] (map (p_all f) jobs)) in
  (forall o, In o (w_pool w) -> w_mem w o = []) /\ NoDup (w_pool w) /\
  (forall i js x, nth_error jobs i = Some js -> nth_error (w_procs w) i = Some (PRet x) -> x = map g js) /\
  (forall i js, nth_error jobs i = Some js -> list_sum (map cost js) <= turns i es ->
     nth_error (w_procs w) i = Some (PRet (map g js))).
Proof.
  intros H jobs es.
  pose proof (pool_safe empty ([] : buffer) (fun i x => forall js, nth_error jobs i = Some js -> map g js = x)
    (fun i => match nth_error jobs i with Some js => list_sum (map cost js) | None => 0 end) (map (p_all f) jobs) es eq_refl) as PS.
  cbn zeta in *. destruct PS as (P1 & P2 & P3 & P4 & P5).
  { intros i p E. rewrite nth_error_map in E. destruct (nth_error jobs i) as [js|] eqn:EJ; [|discriminate]. injection E as <-.
    eapply ok_weak; [apply (all_ok empty f g cost H js)|auto|reflexivity|]. intros x <- js' X. congruence. }
  split; [exact P1|]. split; [exact P2|]. split.
  - intros i js x E X. symmetry. now apply (P4 i x X).
  - intros i js E T. assert (L : i < length (map (p_all f) jobs)) by (rewrite map_length; apply nth_error_Some; congruence).
    destruct (P5 i L) as [x X]; [now rewrite E|]. rewrite (P4 i x X js E). exact X.
Qed.
Lemma radix_joins jobs es : let w := happens [] es (begin [] (map (p_all p_job) jobs)) in
  (forall o, In o (w_pool w) -> w_mem w o = []) /\ NoDup (w_pool w) /\
  (forall i js x, nth_error jobs i = Some js -> nth_error (w_procs w) i = Some (PRet x) -> x = map job_gives js) /\
  (forall i js, nth_error jobs i = Some js -> list_sum (map job_cost js) <= turns i es ->
     nth_error (w_procs w) i = Some (PRet (map job_gives js))).
Proof. apply buffers_safe. intros. apply job_ok. Qed.
Lemma store_joins (jobs : list (list (rune * list gostring))) es :
  let w := happens [] es (begin [] (map (p_all (fun j => p_storeJoin (fst j) (snd j))) jobs)) in
  (forall o, In o (w_pool w) -> w_mem w o = []) /\ NoDup (w_pool w) /\
  (forall i js x, nth_error jobs i = Some js -> nth_error (w_procs w) i = Some (PRet x) -> x = map (fun j => Join (fst j) (snd j)) js) /\
  (forall i js, nth_error jobs i = Some js -> list_sum (map (fun j => 4 + length (Join (fst j) (snd j))) js) <= turns i es ->
     nth_error (w_procs w) i = Some (PRet (map (fun j => Join (fst j) (snd j)) js))).
Proof. apply (buffers_safe (fun j => p_storeJoin (fst j) (snd j)) (fun j => Join (fst j) (snd j)) (fun j => 4 + length (Join (fst j) (snd j)))). intros. apply storeJoin_ok. Qed.

(** ** match contexts: they may be dirty *)
Definition reads_of (d : rune) (us : list ctx_use) : list rune := flat_map (fun u => match u with UseDelim => [d] | SetPath _ => [] end) us.
Lemma uses_ok d o : forall us n s v (q : list rune -> cprog (list rune)) (Q : list rune -> Prop), s o = Some v -> c_delim v = d ->
  (forall s' v', s' o = Some v' -> ok (fun _ => True) Q n s' (q (reads_of d us))) ->
  ok (fun _ => True) Q (length us + n) s (pthen (p_uses o us) q).
Proof.
  induction us as [|u us IH]; intros n s v q Q E D H; cbn [p_uses pthen length plus]; [now apply (H s v)|].
  assert (AS : forall A B C V (p : pprog V A) (f : A -> pprog V B) (g : B -> pprog V C) P m s, ok (fun _ : V => True) P m s (pthen p (fun x => pthen (f x) g)) ->
    ok (fun _ => True) P m s (pthen (pthen p f) g)).
  { clear. intros A B C V p f g P. induction p as [x|k IH|o fn k IH|o k IH|k IH|o k IH]; intros m s H; cbn [pthen] in *; auto.
    - inversion H; subst. constructor. auto.
    - inversion H; subst. eapply ok_upd; eauto.
    - inversion H; subst. eapply ok_read; eauto.
    - inversion H; subst. constructor. auto.
    - inversion H; subst. eapply ok_put; eauto. }
  destruct u as [|w]; cbn [p_uses pthen].
  - apply ok_read with v; auto. apply AS. apply IH with v; auto. intros s' v' E'. cbn [pthen]. rewrite D. now apply (H s' v').
  - apply ok_upd with v; auto. eapply IH; [apply take_same|exact D|]. intros s' v' E'. now apply (H s' v').
Qed.
Definition search_job := (gostring * rune * list ctx_use)%type.
Definition p_searchJob (j : search_job) : cprog (list rune) := let '(w, d, us) := j in p_withCtx w d us.
Definition search_gives (j : search_job) : list rune := let '(_, d, us) := j in reads_of d us.
Definition search_cost (j : search_job) : nat := let '(_, _, us) := j in 4 + length us.
Lemma ctx_ok j s : ok (fun _ => True) (eq (search_gives j)) (search_cost j) s (p_searchJob j).
Proof.
  destruct j as [[w d] us]. unfold p_searchJob, search_gives, search_cost, p_withCtx, p_getMatchCtx. constructor. intros o v _ _.
  eapply ok_upd; [apply take_same|]. eapply ok_upd; [apply take_same|]. cbn [c_delim c_path]. apply ok_more with (n := length us + 1); [|lia].
  eapply uses_ok; [apply take_same|reflexivity|]. intros s' v' E'. eapply ok_put; [exact E'|exact I|]. now constructor.
Qed.
Lemma contexts_safe (jobs : list (list search_job)) es : let fresh := Ctx [] 0%N in
  let w := happens fresh es (begin fresh (map (p_all p_searchJob) jobs)) in
  NoDup (w_pool w) /\
  (forall i js x, nth_error jobs i = Some js -> nth_error (w_procs w) i = Some (PRet x) -> x = map search_gives js) /\
  (forall i js, nth_error jobs i = Some js -> list_sum (map search_cost js) <= turns i es ->
     nth_error (w_procs w) i = Some (PRet (map search_gives js))).
Proof.
  pose proof (pool_safe (fun _ => True) (Ctx [] 0%N) (fun i x => forall js, nth_error jobs i = Some js -> map search_gives js = x)
    (fun i => match nth_error jobs i with Some js => list_sum (map search_cost js) | None => 0 end) (map (p_all p_searchJob) jobs) es I) as PS.
  cbn zeta in *. destruct PS as (_ & P2 & P3 & P4 & P5).
  { intros i p E. rewrite nth_error_map in E. destruct (nth_error jobs i) as [js|] eqn:EJ; [|discriminate]. injection E as <-.
    eapply ok_weak; [apply (all_ok _ p_searchJob search_gives search_cost ctx_ok js)|auto|reflexivity|]. intros x <- js' X. congruence. }
  split; [exact P2|]. split.
  - intros i js x E X. symmetry. now apply (P4 i x X).
  - intros i js E T. assert (L : i < length (map (p_all p_searchJob) jobs)) by (rewrite map_length; apply nth_error_Some; congruence).
    destruct (P5 i L) as [x X]; [now rewrite E|]. rewrite (P4 i x X js E). exact X.
Qed.
