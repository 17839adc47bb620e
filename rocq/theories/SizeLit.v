(** Sizes in other notations: strconv.ParseUint(s, 0, 64) takes the integer literals of Go, and what FromKibiBytes and FromKiloBytes
    (cvter.go:1541-1565, 1627-1651) make of them. *)
From Coq Require Import String.
From Coq Require Import List NArith Bool Arith Lia.
From Verif Require Import GoStr Utf8 Node Trie Dur Cvter SizeProofs.
Import ListNotations.
Open Scope N_scope.
Open Scope list_scope.

(** ** the integer literals of the Go specification *)
(** the digits of a base: 0-9, a-f and A-F *)
Definition numeral (c : N) : option N :=
  if (48 <=? c) && (c <=? 57) then Some (c - 48)
  else if (97 <=? c) && (c <=? 102) then Some (c - 87)
  else if (65 <=? c) && (c <=? 70) then Some (c - 55)
  else None.
Definition digit_in (base c : N) : bool := match numeral c with Some d => d <? base | None => false end.
(** digits, with at most one underscore between two of them *)
Inductive digits (base : N) : list N -> Prop :=
| ds_one c : digit_in base c = true -> digits base [c]
| ds_more c t : digit_in base c = true -> digits base t -> digits base (c :: t)
| ds_under c t : digit_in base c = true -> digits base t -> digits base (c :: 95 :: t).
Definition reading (base : N) (t : list N) : N :=
  fold_left (fun n c => match numeral c with Some d => n * base + d | None => n end) t 0.
(** [literal s base t]: the text [s] is a literal in the base with the digits [t] *)
Inductive literal : list N -> N -> list N -> Prop :=
| l_dec t : digits 10 t -> hd 0 t <> 48 -> literal t 10 t
| l_zero : literal [48] 10 [48]
| l_oct t : digits 8 t -> literal (48 :: t) 8 t
| l_oct_ t : digits 8 t -> literal (48 :: 95 :: t) 8 t
| l_pre x b t : In (x, b) [(98, 2); (66, 2); (111, 8); (79, 8); (120, 16); (88, 16)] -> digits b t -> literal (48 :: x :: t) b t
| l_pre_ x b t : In (x, b) [(98, 2); (66, 2); (111, 8); (79, 8); (120, 16); (88, 16)] -> digits b t -> literal (48 :: x :: 95 :: t) b t.

(** ** characters *)
Lemma below_128 (P : N -> bool) : forallb P (map N.of_nat (seq 0 256)) = true -> forall c, c < 256 -> P c = true.
Proof.
  intros H c L. rewrite forallb_forall in H. apply H. apply in_map_iff. exists (N.to_nat c). rewrite N2Nat.id. split; [reflexivity|].
  apply in_seq. lia.
Qed.
Definition opt_eqb (a b : option N) : bool := match a, b with Some x, Some y => x =? y | None, None => true | _, _ => false end.
Lemma opt_eqb_eq a b : opt_eqb a b = true -> a = b.
Proof. destruct a, b; cbn; try discriminate; auto. intros H. apply N.eqb_eq in H. congruence. Qed.
(** up to sixteen the digits of the model are those above *)
Definition small (o : option N) : option N := match o with Some d => if d <? 16 then Some d else None | None => None end.
Lemma lower_le c : c <= lower c.
Proof. unfold lower. rewrite <- (N.lor_ldiff_and c 32) at 1. rewrite N.lor_comm. apply N.ldiff_le. apply N.bits_inj. intros i. rewrite N.ldiff_spec, !N.lor_spec, N.land_spec, N.ldiff_spec, N.bits_0. now destruct (N.testbit c i), (N.testbit 32 i). Qed.
Lemma digit_numeral c : small (digit_of c) = numeral c.
Proof.
  destruct (N.lt_ge_cases c 256) as [L|L].
  - apply opt_eqb_eq. revert c L. apply (below_128 (fun c => opt_eqb (small (digit_of c)) (numeral c))). vm_compute. reflexivity.
  - pose proof (lower_le c) as LL. unfold digit_of, is_digit, numeral.
    replace (48 <=? c) with true by (symmetry; apply N.leb_le; lia). replace (c <=? 57) with false by (symmetry; apply N.leb_gt; lia). cbn [andb].
    replace (lower c <=? 122) with false by (symmetry; apply N.leb_gt; lia). replace (c <=? 102) with false by (symmetry; apply N.leb_gt; lia).
    replace (c <=? 70) with false by (symmetry; apply N.leb_gt; lia). now rewrite !andb_false_r.
Qed.
Lemma digit_spec base c : base <= 16 -> match digit_of c with Some d => base <=? d | None => true end = negb (digit_in base c).
Proof.
  intros L. unfold digit_in. rewrite <- digit_numeral. unfold small. destruct (digit_of c) as [d|]; [|reflexivity].
  destruct (N.ltb_spec d 16); [now rewrite N.leb_antisym|]. apply N.leb_le. lia.
Qed.
Lemma digit_val base c d : base <= 16 -> digit_in base c = true -> digit_of c = Some d -> numeral c = Some d.
Proof.
  intros L H E. rewrite <- digit_numeral, E. unfold small. pose proof (digit_spec base c L) as S. rewrite E, H in S. cbn in S. apply N.leb_gt in S.
  destruct (N.ltb_spec d 16); [reflexivity|lia].
Qed.
Lemma digit_some base c : base <= 16 -> digit_in base c = true -> exists d, digit_of c = Some d /\ numeral c = Some d /\ d < base.
Proof.
  intros L H. pose proof (digit_spec base c L) as S. rewrite H in S. cbn in S. destruct (digit_of c) as [d|] eqn:E; [|discriminate].
  exists d. split; [reflexivity|]. split; [eapply digit_val; eauto|]. now apply N.leb_gt in S.
Qed.
Lemma not_under base c : digit_in base c = true -> c <> 95.
Proof. intros H ->. discriminate. Qed.

(** ** the scan *)
(** a text of digits and underscores *)
Definition mixed (base : N) (t : list N) : Prop := Forall (fun c => c = 95 \/ digit_in base c = true) t.
Definition go_on (base : N) (t : list N) (n : N) : N := fold_left (fun n c => match numeral c with Some d => n * base + d | None => n end) t n.
Lemma go_on_mono base t : 1 <= base -> forall n, n <= go_on base t n.
Proof.
  intros B. induction t as [|c t IH]; intros n; cbn [go_on fold_left]; [lia|]. fold (go_on base t).
  destruct (numeral c) as [d|]; [|apply IH]. specialize (IH (n * base + d)). fold (go_on base t (n * base + d)) in *. nia.
Qed.
Lemma pu_mixed base t : 2 <= base <= 16 -> mixed base t -> forall n, n <= maxu64 ->
  pu_go base t n = (let v := go_on base t n in if v <=? maxu64 then PNum v else PRange).
Proof.
  intros B M. induction M as [|c t H M IH]; intros n L; cbn [pu_go go_on fold_left].
  - cbn zeta. apply N.leb_le in L. now rewrite L.
  - fold (go_on base t). destruct H as [->|H].
    + rewrite N.eqb_refl. change (numeral 95) with (@None N). cbn iota. now apply IH.
    + pose proof (not_under base c H) as NU. destruct (N.eqb_spec c 95) as [|_]; [congruence|].
      destruct (digit_some base c) as (d & E1 & E2 & E3); [lia|exact H|]. rewrite E1, E2.
      destruct (N.leb_spec base d) as [|_]; [lia|]. fold (go_on base t (n * base + d)).
      pose proof (go_on_mono base t ltac:(lia) (n * base + d)) as GM. cbn zeta.
      destruct (N.leb_spec (maxu64 / base + 1) n) as [X|X].
      { pose proof (N.mul_succ_div_gt maxu64 base ltac:(lia)) as Y. destruct (N.leb_spec (go_on base t (n * base + d)) maxu64); [nia|reflexivity]. }
      destruct (N.ltb_spec maxu64 (n * base + d)) as [Y|Y].
      { destruct (N.leb_spec (go_on base t (n * base + d)) maxu64); [lia|reflexivity]. }
      now apply IH.
Qed.
Lemma pu_num base t : base <= 16 -> forall n v, pu_go base t n = PNum v -> mixed base t.
Proof.
  intros B. induction t as [|c t IH]; intros n v H; cbn [pu_go] in H; [constructor|].
  destruct (N.eqb_spec c 95) as [->|_]; [constructor; [now left|eapply IH; eauto]|].
  pose proof (digit_spec base c B) as S. destruct (digit_of c) as [d|]; [|discriminate]. destruct (base <=? d); [discriminate|].
  destruct (maxu64 / base + 1 <=? n); [discriminate|]. destruct (maxu64 <? n * base + d); [discriminate|].
  constructor; [right; now destruct (digit_in base c)|eapply IH; eauto].
Qed.
Lemma digits_mixed base t : digits base t -> mixed base t.
Proof. intros H. induction H; constructor; auto; constructor; auto. Qed.
Lemma digits_ne base t : digits base t -> exists c t', t = c :: t' /\ digit_in base c = true.
Proof. intros H. destruct H; eauto. Qed.

(** ** underscores *)
Definition us_digit (hex : bool) (c : N) : bool := is_digit c || (hex && ((97 <=? lower c) && (lower c <=? 102))).
Lemma us_digit_in base c : base <= 16 -> digit_in base c = true -> us_digit (10 <? base) c = true.
Proof.
  intros B H. assert (L : c < 256).
  { destruct (N.lt_ge_cases c 256) as [|G]; [auto|]. unfold digit_in, numeral in H.
    replace (c <=? 57) with false in H by (symmetry; apply N.leb_gt; lia). replace (c <=? 102) with false in H by (symmetry; apply N.leb_gt; lia).
    replace (c <=? 70) with false in H by (symmetry; apply N.leb_gt; lia). rewrite !andb_false_r in H. discriminate. }
  destruct (N.ltb_spec 10 base) as [X|X].
  - assert (A : implb (digit_in 16 c) (us_digit true c) = true).
    { revert c H L. intros c _. apply (below_128 (fun c => implb (digit_in 16 c) (us_digit true c))). vm_compute. reflexivity. }
    assert (D : digit_in 16 c = true). { unfold digit_in in *. destruct (numeral c); [|discriminate]. apply N.ltb_lt in H. apply N.ltb_lt. lia. }
    rewrite D in A. exact A.
  - assert (A : implb (digit_in 10 c) (us_digit false c) = true).
    { revert c H L. intros c _. apply (below_128 (fun c => implb (digit_in 10 c) (us_digit false c))). vm_compute. reflexivity. }
    assert (D : digit_in 10 c = true). { unfold digit_in in *. destruct (numeral c); [|discriminate]. apply N.ltb_lt in H. apply N.ltb_lt. lia. }
    rewrite D in A. exact A.
Qed.
Lemma us_under hex : us_digit hex 95 = false.
Proof. now destruct hex. Qed.
Lemma us_step hex c t i : us_go hex (c :: t) i = if us_digit hex c then us_go hex t 1 else if c =? 95 then if i =? 1 then us_go hex t 2 else false else if i =? 2 then false else us_go hex t 3.
Proof. reflexivity. Qed.
(** after a digit, after an underscore, at the start *)
Lemma us_mixed base t : base <= 16 -> mixed base t ->
  (us_go (10 <? base) t 1 = true <-> t = [] \/ digits base t \/ exists t', t = 95 :: t' /\ digits base t') /\
  (us_go (10 <? base) t 2 = true <-> digits base t) /\
  (us_go (10 <? base) t 0 = true <-> t = [] \/ digits base t).
Proof.
  intros B M. induction M as [|c t H M (I1 & I2 & I0)].
  - cbn. split; [|split]; split; auto; try discriminate. intros X. inversion X.
  - rewrite !us_step. destruct H as [->|H].
    + rewrite us_under. cbn [N.eqb Pos.eqb].
      assert (NO : ~ digits base (95 :: t)) by (intros X; inversion X; subst; discriminate).
      split; [|split].
      * rewrite I2. split; [eauto|]. intros [X|[X|(t' & X & Y)]]; [discriminate|tauto|congruence].
      * split; [discriminate|tauto].
      * split; [discriminate|]. intros [X|X]; [discriminate|tauto].
    + rewrite (us_digit_in base c B H), I1.
      assert (K : (t = [] \/ digits base t \/ (exists t', t = 95 :: t' /\ digits base t')) <-> digits base (c :: t)).
      { split.
        - intros [->|[X|(t' & -> & X)]]; [now constructor|now constructor|now constructor].
        - intros X. inversion X; subst; eauto. }
      rewrite K. split; [|split].
      * split; [auto|]. intros [X|[X|(t' & X & Y)]]; [discriminate|auto|]. injection X as -> _. discriminate.
      * tauto.
      * split; [auto|]. intros [X|X]; [discriminate|auto].
Qed.
Lemma mixed_plain base t : mixed base t -> mem 95 t = false -> t <> [] -> digits base t.
Proof.
  intros M. induction M as [|c t H M IH]; intros N E; [congruence|]. cbn [mem existsb] in N. apply orb_false_iff in N. destruct N as [N1 N2].
  assert (Hc : digit_in base c = true) by (destruct H as [->|H]; [discriminate|exact H]).
  destruct t as [|x t]; [now constructor|]. constructor; [exact Hc|]. apply IH; [exact N2|discriminate].
Qed.
Lemma go_read base t : go_on base t 0 = reading base t.
Proof. reflexivity. Qed.

(** ** exactly the literals *)
Definition sound (s : list N) (n : N) : Prop := exists b t, literal s b t /\ n = reading b t.
Lemma base_pre x b : In (x, b) [(98, 2); (66, 2); (111, 8); (79, 8); (120, 16); (88, 16)] ->
  2 <= b <= 16 /\ (lower x =? 120) = (10 <? b) /\ ((lower x =? 98) || (lower x =? 111) || (lower x =? 120)) = true /\
  forall t, t <> [] -> base_of (48 :: x :: t) = (b, t).
Proof. intros H. cbn in H. repeat (destruct H as [H|H]; [injection H as <- <-; split; [lia|]; split; [reflexivity|]; split; [reflexivity|]; intros [|y t] N; [congruence|reflexivity]|]). destruct H. Qed.
Lemma lower_cases x k : In k [98; 111; 120] -> lower x = k -> x = k \/ x = k - 32.
Proof.
  intros Hk E. assert (L : x < 256). { pose proof (lower_le x). cbn in Hk. lia. }
  assert (A : implb (lower x =? k) ((x =? k) || (x =? k - 32)) = true).
  { cbn in Hk. revert x E L. intros x _. destruct Hk as [<-|[<-|[<-|[]]]]; [apply (below_128 (fun x => implb (lower x =? 98) ((x =? 98) || (x =? 98 - 32))))
      |apply (below_128 (fun x => implb (lower x =? 111) ((x =? 111) || (x =? 111 - 32))))|apply (below_128 (fun x => implb (lower x =? 120) ((x =? 120) || (x =? 120 - 32))))]; vm_compute; reflexivity. }
  rewrite E, N.eqb_refl in A. cbn in A. apply orb_true_iff in A. rewrite !N.eqb_eq in A. exact A.
Qed.
(** what the text is taken for *)
Lemma base_split s : s <> [] ->
  (hd 0 s <> 48 /\ base_of s = (10, s) /\ (forall c t, s = c :: t -> c <> 45 -> c <> 43 -> underscoreOK s = us_go false s 0)) \/
  (s = [48]) \/
  (exists x b t, In (x, b) [(98, 2); (66, 2); (111, 8); (79, 8); (120, 16); (88, 16)] /\ t <> [] /\ s = 48 :: x :: t /\ base_of s = (b, t) /\ underscoreOK s = us_go (10 <? b) t 1) \/
  (exists t, s = 48 :: t /\ t <> [] /\ base_of s = (8, t) /\ (hd 0 t = 98 \/ hd 0 t = 66 \/ hd 0 t = 111 \/ hd 0 t = 79 \/ hd 0 t = 120 \/ hd 0 t = 88 \/ underscoreOK s = us_go false t 1)).
Proof.
  intros NE. destruct s as [|z s]; [congruence|]. destruct (N.eq_dec z 48) as [->|Nz].
  2:{ left. split; [exact Nz|]. split; [unfold base_of; destruct (N.eqb_spec z 48); [congruence|reflexivity]|]. intros c t E N1 N2. injection E as <- <-. unfold underscoreOK.
      destruct (N.eqb_spec z 45); [congruence|]. destruct (N.eqb_spec z 43); [congruence|]. cbn [orb]. destruct s as [|x s]; [reflexivity|].
      destruct (N.eqb_spec z 48); [congruence|reflexivity]. }
  right. destruct s as [|x s]; [now left|]. right.
  assert (U : underscoreOK (48 :: x :: s) = if (lower x =? 98) || (lower x =? 111) || (lower x =? 120) then us_go (lower x =? 120) s 1 else us_go false (x :: s) 1).
  { unfold underscoreOK. cbn [N.eqb Pos.eqb orb andb]. destruct (_ || _ || _); [reflexivity|]. rewrite us_step. reflexivity. }
  destruct s as [|y s].
  - right. exists [x]. split; [reflexivity|]. split; [discriminate|]. split; [reflexivity|]. cbn [hd]. rewrite U.
    destruct ((lower x =? 98) || (lower x =? 111) || (lower x =? 120)) eqn:E; [|tauto].
    apply orb_true_iff in E. rewrite orb_true_iff, !N.eqb_eq in E. destruct E as [[E|E]|E]; apply lower_cases in E; cbn; try tauto; cbn in E; tauto.
  - assert (BO : base_of (48 :: x :: y :: s) = if lower x =? 98 then (2, y :: s) else if lower x =? 111 then (8, y :: s) else if lower x =? 120 then (16, y :: s) else (8, x :: y :: s)) by reflexivity.
    destruct ((lower x =? 98) || (lower x =? 111) || (lower x =? 120)) eqn:E.
    + left. apply orb_true_iff in E. rewrite orb_true_iff, !N.eqb_eq in E.
      assert (X : exists b, In (x, b) [(98, 2); (66, 2); (111, 8); (79, 8); (120, 16); (88, 16)]).
      { destruct E as [[E|E]|E]; apply lower_cases in E; cbn in E |- *; try tauto; destruct E as [->| ->]; eexists; eauto 10. }
      destruct X as [b X]. exists x, b, (y :: s). split; [exact X|]. split; [discriminate|]. split; [reflexivity|].
      destruct (base_pre x b X) as (B1 & B2 & B3 & B4). split; [apply B4; discriminate|]. now rewrite U, B2.
    + right. exists (x :: y :: s). split; [reflexivity|]. split; [discriminate|]. split; [|rewrite U; tauto].
      rewrite BO. apply orb_false_iff in E. destruct E as [E E3]. apply orb_false_iff in E. destruct E as [-> ->]. now rewrite E3.
Qed.
Theorem parse_literal s b t : literal s b t -> ParseUint s = if reading b t <=? maxu64 then (reading b t, true) else (maxu64, false).
Proof.
  assert (FIN : forall s b b' d t, s <> [] -> base_of s = (b, d) -> b = b' -> 2 <= b <= 16 -> mixed b d -> go_on b d 0 = reading b t -> (mem 95 d = true -> underscoreOK s = true) ->
    ParseUint s = if reading b' t <=? maxu64 then (reading b' t, true) else (maxu64, false)).
  { clear. intros s b b' d t NE EB <- B M G U. unfold ParseUint. destruct s as [|c s]; [congruence|]. cbn [is_nil]. rewrite EB.
    rewrite (pu_mixed b d B M) by (unfold maxu64, two64; lia). cbn zeta. rewrite G. destruct (reading b t <=? maxu64); [|reflexivity].
    destruct (mem 95 d) eqn:E; [rewrite (U eq_refl)|]; reflexivity. }
  intros H. destruct H as [t D N| |t D|t D|x b t X D|x b t X D].
  - destruct (digits_ne _ _ D) as (c & t' & E & Hc). destruct (base_split t) as [(_ & B1 & B2)|[B|[(x & b & u & _ & _ & B & _)|(u & B & _)]]];
      [rewrite E; discriminate| |rewrite B in N; cbn in N; congruence..].
    eapply FIN; [rewrite E; discriminate|exact B1|reflexivity|lia|now apply digits_mixed|reflexivity|]. intros _. rewrite (B2 c t' E).
    + apply (proj2 (proj2 (us_mixed 10 t ltac:(lia) (digits_mixed _ _ D)))). auto.
    + intros ->. discriminate.
    + intros ->. discriminate.
  - reflexivity.
  - destruct (digits_ne _ _ D) as (c & t' & -> & Hc).
    assert (NX : forall k, In k [98; 66; 111; 79; 120; 88] -> c <> k) by (intros k Hk ->; cbn in Hk; repeat (destruct Hk as [<-|Hk]; [discriminate|]); destruct Hk).
    destruct (base_split (48 :: c :: t')) as [(B & _)|[B|[(x & b & u & I & _ & B & _)|(u & B & _ & B1 & B2)]]];
      [discriminate|cbn in B; congruence|try discriminate; congruence| |].
    + injection B as E _. exfalso. apply (in_map fst) in I. exact (NX x I E).
    + injection B as <-. cbn [hd] in B2. eapply FIN; [discriminate|exact B1|reflexivity|lia|now apply digits_mixed|reflexivity|]. intros _.
      assert (U : underscoreOK (48 :: c :: t') = us_go false (c :: t') 1).
      { repeat (destruct B2 as [B2|B2]; [exfalso; revert B2; apply NX; cbn; tauto|]). exact B2. }
      rewrite U. apply (proj1 (us_mixed 8 _ ltac:(lia) (digits_mixed _ _ D))). auto.
  - destruct (base_split (48 :: 95 :: t)) as [(B & _)|[B|[(x & b & u & I & _ & B & _)|(u & B & _ & B1 & B2)]]];
      [discriminate|cbn in B; congruence|try discriminate; congruence| |].
    + injection B as <- _. exfalso. cbn in I. repeat (destruct I as [I|I]; [discriminate|]). destruct I.
    + injection B as <-. cbn [hd] in B2. pose proof (digits_mixed _ _ D) as M. assert (M' : mixed 8 (95 :: t)) by (constructor; auto).
      eapply FIN; [discriminate|exact B1|reflexivity|lia|exact M'|reflexivity|]. intros _.
      repeat (destruct B2 as [B2|B2]; [discriminate|]). rewrite B2. apply (proj1 (us_mixed 8 _ ltac:(lia) M')). eauto.
  - destruct (base_pre x b X) as (B1 & B2 & B3 & B4). destruct (digits_ne _ _ D) as (c & t' & Et & Hc).
    eapply FIN; [discriminate|apply B4; rewrite Et; discriminate|reflexivity|lia|now apply digits_mixed|reflexivity|]. intros _.
    unfold underscoreOK. cbn [N.eqb Pos.eqb orb andb]. rewrite B3, B2. apply (proj1 (us_mixed b _ ltac:(lia) (digits_mixed _ _ D))). auto.
  - destruct (base_pre x b X) as (B1 & B2 & B3 & B4). pose proof (digits_mixed _ _ D) as M. assert (M' : mixed b (95 :: t)) by (constructor; auto).
    eapply FIN; [discriminate|apply B4; discriminate|reflexivity|lia|exact M'|reflexivity|]. intros _.
    unfold underscoreOK. cbn [N.eqb Pos.eqb orb andb]. rewrite B3, B2. apply (proj1 (us_mixed b _ ltac:(lia) M')). eauto.
Qed.
Theorem parse_only s n : ParseUint s = (n, true) -> exists b t, literal s b t /\ n = reading b t.
Proof.
  unfold ParseUint. destruct s as [|c s]; [discriminate|]. cbn [is_nil]. set (s0 := c :: s). intros H.
  destruct (base_of s0) as [b d] eqn:EB. destruct (pu_go b d 0) as [v| |] eqn:EP; try discriminate.
  destruct (mem 95 d && negb (underscoreOK s0)) eqn:EU; [discriminate|]. injection H as <-.
  assert (U : mem 95 d = false \/ underscoreOK s0 = true) by (destruct (mem 95 d); [right; now destruct (underscoreOK s0)|now left]).
  assert (VAL : 2 <= b <= 16 -> mixed b d /\ v = reading b d).
  { intros B. pose proof (pu_num b d ltac:(lia) 0 v EP) as M. split; [exact M|]. rewrite (pu_mixed b d B M) in EP by (unfold maxu64, two64; lia). cbn zeta in EP.
    destruct (go_on b d 0 <=? maxu64); [|discriminate]. injection EP as <-. apply go_read. }
  destruct (base_split s0) as [(B & B1 & B2)|[B|[(x & b' & t & I & NE & B & B1 & B2)|(t & B & NE & B1 & B2)]]]; [discriminate| | | |].
  - rewrite B1 in EB. injection EB as <- <-. destruct VAL as [M V]; [lia|]. exists 10, s0. split; [|exact V]. apply l_dec; [|exact B].
    destruct U as [U|U]; [apply mixed_plain; [exact M|exact U|discriminate]|].
    rewrite (B2 c s eq_refl) in U.
    + destruct (proj2 (proj2 (us_mixed 10 _ ltac:(lia) M))) as [X _]. destruct (X U) as [Y|Y]; [discriminate|exact Y].
    + intros ->. inversion M as [|? ? [X|X] _]; discriminate.
    + intros ->. inversion M as [|? ? [X|X] _]; discriminate.
  - rewrite B in EB |- *. injection EB as <- <-. cbn in EP. injection EP as <-. exists 10, [48]. split; [exact l_zero|reflexivity].
  - rewrite B1 in EB. injection EB as <- <-. destruct (base_pre x b' I) as (BB & _). destruct (VAL BB) as [M V].
    assert (X : digits b' t \/ exists t', t = 95 :: t' /\ digits b' t').
    { destruct U as [U|U]; [left; now apply mixed_plain|]. rewrite B2 in U. destruct (proj1 (us_mixed b' _ ltac:(lia) M)) as [Y _]. destruct (Y U) as [Z|Z]; [congruence|exact Z]. }
    rewrite B. destruct X as [X|(t' & -> & X)]; [exists b', t|exists b', t']; (split; [|exact V]); [now apply (l_pre x)|now apply (l_pre_ x)].
  - rewrite B1 in EB. injection EB as <- <-. destruct VAL as [M V]; [lia|].
    assert (X : digits 8 t \/ exists t', t = 95 :: t' /\ digits 8 t').
    { destruct U as [U|U]; [left; now apply mixed_plain|].
      assert (UU : underscoreOK s0 = us_go false t 1).
      { destruct t as [|y t]; [congruence|]. cbn [hd] in B2. assert (My : y = 95 \/ digit_in 8 y = true) by (now inversion M).
        repeat (destruct B2 as [->|B2]; [destruct My; discriminate|]). exact B2. }
      rewrite UU in U. destruct (proj1 (us_mixed 8 _ ltac:(lia) M)) as [Y _]. destruct (Y U) as [Z|Z]; [congruence|exact Z]. }
    rewrite B. destruct X as [X|(t' & -> & X)]; [exists 8, t|exists 8, t']; (split; [|exact V]); [now apply l_oct|now apply l_oct_].
Qed.

(** ** sizes *)
Definition outcome_of (n times : N) : N := if n <=? maxu64 then (n * times) mod two64 else maxu64.
Lemma digit_solid16 c : digit_in 16 c = true -> solid c /\ mem c (s2b "."%string) = false /\ (mem c (s2b "eE"%string) = false -> mem c suffixes = false) /\
  (mem c (s2b "eE"%string) = false -> forall unit, sizeTimes unit c = 1) /\
  (mem c (s2b "bB"%string) = false -> mem c (s2b "iBib"%string) = false /\ mem c (s2b "Bb"%string) = false).
Proof.
  intros H. assert (X : In c (s2b "0123456789abcdefABCDEF"%string)).
  { unfold digit_in, numeral in H.
    destruct ((48 <=? c) && (c <=? 57)) eqn:E1; [|destruct ((97 <=? c) && (c <=? 102)) eqn:E2; [|destruct ((65 <=? c) && (c <=? 70)) eqn:E3; [|discriminate]]];
      (match goal with E : _ && _ = true |- _ => apply andb_true_iff in E; rewrite !N.leb_le in E; cbn; lia end). }
  cbn in X. repeat (destruct X as [<-|X]; [split; [split; [lia|reflexivity]|]; split; [reflexivity|]; split; [intros; (reflexivity || discriminate)|]; split;
    [intros; (reflexivity || discriminate)|intros; (split; reflexivity) || discriminate]|]). destruct X.
Qed.
Lemma digit_16 b c : b <= 16 -> digit_in b c = true -> digit_in 16 c = true.
Proof. intros B. unfold digit_in. destruct (numeral c); [|discriminate]. rewrite !N.ltb_lt. lia. Qed.
Lemma digits_last b t : b <= 16 -> digits b t -> digit_in 16 (last t 0) = true.
Proof.
  intros B H. induction H as [c H|c t H D IH|c t H D IH].
  - cbn. eapply digit_16; eauto.
  - destruct D; exact IH.
  - destruct D; exact IH.
Qed.
Lemma digits_chars b t : b <= 16 -> digits b t -> Forall (fun c => solid c /\ mem c (s2b "."%string) = false) t.
Proof.
  intros B H. assert (U : solid 95 /\ mem 95 (s2b "."%string) = false) by (split; [split; [lia|reflexivity]|reflexivity]).
  induction H as [c H|c t H D IH|c t H D IH]; repeat (constructor; auto); try (eapply digit_16 in H; [|exact B]; apply digit_solid16 in H; tauto);
    try (eapply digit_16 in H; [|exact B]; destruct (digit_solid16 c H) as ([S1 S2] & S3 & _); assumption).
Qed.
(** the literal begins with a digit, ends with one, and consists of letters, digits and underscores *)
Lemma literal_shape s b t : literal s b t -> s <> [] /\ last s 0 = last t 0 /\ digit_in 16 (last t 0) = true /\
  Forall (fun c => solid c /\ mem c (s2b "."%string) = false) s.
Proof.
  assert (U : forall c, In c (s2b "0_bBoOxX"%string) -> solid c /\ mem c (s2b "."%string) = false).
  { intros c H. cbn in H. repeat (destruct H as [<-|H]; [split; [split; [lia|reflexivity]|reflexivity]|]). destruct H. }
  assert (PR : forall x b, In (x, b) [(98, 2); (66, 2); (111, 8); (79, 8); (120, 16); (88, 16)] -> In x (s2b "0_bBoOxX"%string) /\ b <= 16).
  { intros x b' H. cbn in H |- *. repeat (destruct H as [H|H]; [injection H as <- <-; split; [tauto|lia]|]). destruct H. }
  intros H. assert (Hb : b <= 16) by (destruct H; try lia; eapply PR; eauto).
  destruct H as [t D N| |t D|t D|x b t X D|x b t X D];
    try (pose proof (digits_last _ _ Hb D) as L; pose proof (digits_chars _ _ Hb D) as F; destruct (digits_ne _ _ D) as (c0 & t0 & -> & Hc)).
  - split; [discriminate|]. auto.
  - split; [discriminate|]. split; [reflexivity|]. split; [reflexivity|]. constructor; [apply U; cbn; tauto|constructor].
  - split; [discriminate|]. split; [reflexivity|]. split; [exact L|]. constructor; [apply U; cbn; tauto|exact F].
  - split; [discriminate|]. split; [reflexivity|]. split; [exact L|]. constructor; [apply U; cbn; tauto|]. constructor; [apply U; cbn; tauto|exact F].
  - split; [discriminate|]. split; [reflexivity|]. split; [exact L|]. constructor; [apply U; cbn; tauto|]. constructor; [apply U; eapply PR; eauto|exact F].
  - split; [discriminate|]. split; [reflexivity|]. split; [exact L|]. constructor; [apply U; cbn; tauto|]. constructor; [apply U; eapply PR; eauto|].
    constructor; [apply U; cbn; tauto|exact F].
Qed.

Section Bytes.
Variable PF : gostring -> option f64.
Variables (unit : N) (cut1 cut2 : gostring).
Hypothesis C0 : forall c k, power c = Some k -> mem c (cut1 ++ cut2) = false.
Hypothesis C1 : forall c, digit_in 16 c = true -> mem c (s2b "bB"%string) = false -> mem c (cut1 ++ cut2) = false.
Hypothesis Csolid : Forall solid (cut1 ++ cut2).
Lemma lit_core lead s b t mid sfx x y trail times :
  literal s b t -> Forall (fun c => blank c = true) lead -> Forall (fun c => blank c = true) trail -> Forall (fun c => blank c = true) mid ->
  (sfx = [] /\ mid = [] /\ times = 1 /\ mem (last t 0) (s2b "bBeE"%string) = false \/
   exists c k, sfx = [c] /\ power c = Some k /\ times = unit ^ k /\ (mid <> [] \/ mem (last t 0) (s2b "eE"%string) = false)) ->
  Forall (fun c => mem c cut2 = true) x -> Forall (fun c => mem c cut1 = true) y ->
  fromBytes PF unit cut1 cut2 (lead ++ (s ++ mid ++ sfx ++ x ++ y) ++ trail) = Ok (outcome_of (reading b t) times).
Proof.
  intros Lit Fl Ft Fm Hs Fx Fy. destruct (literal_shape _ _ _ Lit) as (Hn & Els & D16 & Fs). unfold fromBytes.
  destruct (digit_solid16 _ D16) as (L1 & L2 & L3 & L4 & _).
  assert (EB : mem (last t 0) (s2b "bBeE"%string) = false -> mem (last t 0) (s2b "bB"%string) = false /\ mem (last t 0) (s2b "eE"%string) = false).
  { change (s2b "bBeE"%string) with (s2b "bB"%string ++ s2b "eE"%string). rewrite mem_cut, orb_false_iff. auto. }
  assert (Sh : solid (hd 0 s)) by (destruct s; [congruence|]; now inversion Fs as [|? ? [X _]]).
  set (core := s ++ mid ++ sfx).
  assert (Hc : core <> []) by (unfold core; destruct s; [congruence|discriminate]).
  assert (Lc : solid (last core 0) /\ mem (last core 0) (cut1 ++ cut2) = false).
  { unfold core. destruct Hs as [(-> & -> & _ & NB)|(c & k & -> & Hk & _)].
    - cbn [app]. rewrite app_nil_r, Els. split; [exact L1|]. apply C1; [exact D16|]. now apply EB.
    - rewrite app_assoc, last_last. split; [eapply power_solid; eauto|eauto]. }
  destruct Lc as [Lc1 Lc2]. rewrite mem_cut, orb_false_iff in Lc2.
  replace (s ++ mid ++ sfx ++ x ++ y) with (core ++ x ++ y) by (unfold core; now rewrite <- !app_assoc).
  assert (Sxy : Forall solid (x ++ y)).
  { apply Forall_forall. intros c H. rewrite Forall_forall in Csolid. apply Csolid. apply in_app_iff in H. apply in_app_iff.
    rewrite Forall_forall in Fx, Fy. destruct H as [H|H]; [apply Fx in H|apply Fy in H]; unfold mem in H;
      apply existsb_exists in H; destruct H as (z & Hz & E); apply N.eqb_eq in E; subst; auto. }
  rewrite trim_space; auto.
  2:{ destruct core; [congruence|discriminate]. }
  2:{ unfold core. destruct s; [congruence|]. exact Sh. }
  2:{ destruct (x ++ y) as [|z l] eqn:E; [now rewrite app_nil_r|].
      assert (Hin : In (last (core ++ z :: l) 0) (z :: l)).
      { destruct (exists_last (l := z :: l)) as (b' & e & Eb); [discriminate|]. rewrite Eb, app_assoc, last_last.
        apply in_or_app. right. now left. }
      rewrite Forall_forall in Sxy. auto. }
  rewrite trim_right_two by tauto.
  assert (T : TrimRight core suffixes = s ++ mid).
  { unfold core. rewrite app_assoc. apply trim_right.
    - destruct s; [congruence|discriminate].
    - destruct mid as [|m0 mid]; [rewrite app_nil_r, Els; apply L3; destruct Hs as [(_ & _ & _ & NB)|(c & k & _ & _ & _ & [NM|NE])]; [now apply EB|congruence|exact NE]|].
      destruct (exists_last (l := m0 :: mid)) as (b' & e & Eb); [discriminate|]. rewrite Eb, app_assoc, last_last.
      apply blank_suffix. rewrite Forall_forall in Fm. apply Fm. rewrite Eb. apply in_or_app. right. now left.
    - destruct Hs as [(-> & _)|(c & k & -> & Hk & _)]; [constructor|]. constructor; [|constructor]. eapply power_suffix; eauto. }
  rewrite T.
  assert (T2 : TrimSpace (s ++ mid) = s) by (apply (trim_space [] s mid); auto; now rewrite Els).
  rewrite T2.
  assert (ND : mem 46 s = false).
  { unfold mem. apply not_true_iff_false. rewrite existsb_exists. intros (z & Hz & E). apply N.eqb_eq in E. subst z. rewrite Forall_forall in Fs. destruct (Fs 46 Hz) as [_ X]. discriminate. }
  rewrite ND, (parse_literal _ _ _ Lit). unfold outcome_of. destruct (reading b t <=? maxu64); [|reflexivity].
  assert (Ad : ascii s = true) by (apply solid_ascii; eapply Forall_impl; [|exact Fs]; cbn; tauto).
  destruct Hs as [(Es & Em & Et & NB)|(c & k & Es & Hk & Et & _)].
  - assert (Ec : core = s) by (unfold core; rewrite Es, Em; cbn; now rewrite app_nil_r). rewrite Ec.
    destruct (exists_last Hn) as (b' & e & Eb). rewrite Eb in *. rewrite last_last in Els.
    rewrite ascii_last_rune by assumption. cbn [bind]. rewrite Els, L4, Et; [reflexivity|now apply EB].
  - unfold core. rewrite Es, app_assoc, ascii_last_rune.
    + cbn [bind]. rewrite (power_times unit c k Hk), Et. reflexivity.
    + rewrite !ascii_app, Ad, (blank_ascii mid Fm). cbn [andb].
      apply solid_ascii. constructor; [eapply power_solid; eauto|constructor].
Qed.
End Bytes.
Theorem kibi_literal PF lead s b t mid c k x y trail : literal s b t -> power c = Some k -> (mid <> [] \/ mem (last t 0) (s2b "eE"%string) = false) ->
  Forall (fun c => blank c = true) (lead ++ mid ++ trail) ->
  Forall (fun b => mem b (s2b "ib"%string) = true) x -> Forall (fun b => mem b (s2b "iB"%string) = true) y ->
  FromKibiBytes PF (lead ++ (s ++ mid ++ [c] ++ x ++ y) ++ trail) = Ok (outcome_of (reading b t) (1024 ^ k)).
Proof.
  intros L Hk Hm Fb Fx Fy. apply Forall_app in Fb. destruct Fb as [F1 Fb]. apply Forall_app in Fb. destruct Fb as [F2 F3].
  unfold FromKibiBytes. apply lit_core; auto; [exact kibi_cut| | |right; eauto 6].
  - intros c' D NB. now apply digit_solid16.
  - cbn. repeat constructor.
Qed.
Theorem kilo_literal PF lead s b t mid c k x y trail : literal s b t -> power c = Some k -> (mid <> [] \/ mem (last t 0) (s2b "eE"%string) = false) ->
  Forall (fun c => blank c = true) (lead ++ mid ++ trail) ->
  Forall (fun b => mem b (s2b "b"%string) = true) x -> Forall (fun b => mem b (s2b "B"%string) = true) y ->
  FromKiloBytes PF (lead ++ (s ++ mid ++ [c] ++ x ++ y) ++ trail) = Ok (outcome_of (reading b t) (1000 ^ k)).
Proof.
  intros L Hk Hm Fb Fx Fy. apply Forall_app in Fb. destruct Fb as [F1 Fb]. apply Forall_app in Fb. destruct Fb as [F2 F3].
  unfold FromKiloBytes. apply lit_core; auto; [exact kilo_cut| | |right; eauto 6].
  - intros c' D NB. now apply digit_solid16.
  - cbn. repeat constructor.
Qed.
Theorem bare_literal PF lead s b t trail : literal s b t -> mem (last t 0) (s2b "bBeE"%string) = false -> Forall (fun c => blank c = true) (lead ++ trail) ->
  FromKibiBytes PF (lead ++ s ++ trail) = Ok (outcome_of (reading b t) 1) /\ FromKiloBytes PF (lead ++ s ++ trail) = Ok (outcome_of (reading b t) 1).
Proof.
  intros L NB Fb. apply Forall_app in Fb. destruct Fb as [F1 F2]. split.
  - pose proof (lit_core PF 1024 (s2b "iB"%string) (s2b "ib"%string) kibi_cut) as X. specialize (X (fun c D N => proj1 (proj2 (proj2 (proj2 (proj2 (digit_solid16 c D)))) N))).
    specialize (X ltac:(cbn; repeat constructor) lead s b t [] [] [] [] trail 1). cbn [app] in X. rewrite app_nil_r in X. apply X; auto 6.
  - pose proof (lit_core PF 1000 (s2b "B"%string) (s2b "b"%string) kilo_cut) as X. specialize (X (fun c D N => proj2 (proj2 (proj2 (proj2 (proj2 (digit_solid16 c D)))) N))).
    specialize (X ltac:(cbn; repeat constructor) lead s b t [] [] [] [] trail 1). cbn [app] in X. rewrite app_nil_r in X. apply X; auto 6.
Qed.
(** anything else without a point is no size: the value of a failed parse is given, unmultiplied *)
Theorem not_literal s : ~ (exists b t, literal s b t) -> ParseUint s = (0, false) \/ ParseUint s = (maxu64, false).
Proof.
  intros H. destruct (ParseUint s) as [n [|]] eqn:E; [exfalso; apply H; apply parse_only in E; destruct E as (b & t & L & _); eauto|].
  unfold ParseUint in E. destruct (is_nil s); [left; congruence|]. destruct (base_of s) as [b d]. destruct (pu_go b d 0); try (left; congruence); try (right; congruence).
  destruct (mem 95 d && negb (underscoreOK s)); [left; congruence|discriminate].
Qed.
