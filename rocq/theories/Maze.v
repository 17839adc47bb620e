(** Keys whose segments are a name or a pattern: the tree they make, and what a lookup costs in it. *)
From Coq Require Import List NArith Bool Arith Lia.
From Verif Require Import GoStr Utf8 Node NodeWf InsertProofs MatchProofs Trie TreeOps Spec Refine ApiRefine Heap HeapProofs HeapWalk HeapRace
  HeapGet HeapGetProofs NoId Size Cost.
Import ListNotations.
Open Scope nat_scope.
Open Scope list_scope.

(** "a." and ":." *)
Definition nam : list rune := [97%N; 46%N].
Definition pat : list rune := [58%N; 46%N].
(** all keys of [n] such segments and "z" *)
Fixpoint keys (n : nat) : list (list rune) := match n with O => [[122%N]] | S n => map (app nam) (keys n) ++ map (app pat) (keys n) end.
Lemma keys_length n : length (keys n) = 2 ^ n.
Proof. induction n as [|n IH]; [reflexivity|]. cbn [keys Nat.pow]. rewrite app_length, !map_length, IH. lia. Qed.

(** ** insertions *)
Definition step_to (m : node) (w : list rune) (m' : node) : Prop :=
  exists fuel fp v nx ir, insertInternal fuel m w fp v nx = Ok ir /\ ir_node ir = m'.
Inductive steps : node -> list (list rune) -> node -> Prop :=
| st_nil m : steps m [] m
| st_cons m w m1 ws m2 : step_to m w m1 -> steps m1 ws m2 -> steps m (w :: ws) m2.
Lemma steps_app m ws ws' m' : steps m (ws ++ ws') m' -> exists m1, steps m ws m1 /\ steps m1 ws' m'.
Proof.
  revert m. induction ws as [|w ws IH]; intros m H; [exists m; split; [constructor|exact H]|].
  inversion H as [|? ? m1 ? ? H1 H2]; subst. destruct (IH _ H2) as (m2 & A & B). exists m2. split; auto. econstructor; eauto.
Qed.
Lemma steps_one m w m' : steps m [w] m' -> step_to m w m'.
Proof. intros H. inversion H as [|? ? m1 ? ? H1 H2]; subst. inversion H2; subst. exact H1. Qed.

Lemma cpl_part f : forall a y b w, a <> b -> cpl_len (f ++ b :: w) (f ++ a :: y) = length f.
Proof.
  induction f as [|c f IH]; intros a y b w Ne; cbn.
  - destruct (N.eqb_spec b a); congruence.
  - rewrite N.eqb_refl. now rewrite IH.
Qed.
Lemma skip_pre {A} (p z : list A) : skipn (length p) (p ++ z) = z.
Proof. now rewrite skipn_app, skipn_all, Nat.sub_diag. Qed.
Definition other (c : rune) (k : node) : Prop := exists d q, npath k = d :: q /\ d <> c.
Lemma kids_hit c w k q r : forall l, Forall (other c) l -> npath k = c :: q -> matchChildren (c :: w) (l ++ k :: r) = Ok (Some (l, k, r)).
Proof.
  induction l as [|x l IH]; intros F E; cbn [app matchChildren].
  - now rewrite E, N.eqb_refl.
  - inversion F as [|? ? (d & p & Ed & Nd) F']; subst. rewrite Ed. destruct (N.eqb_spec d c); [congruence|]. now rewrite IH.
Qed.
Lemma kids_miss c w : forall l, Forall (other c) l -> matchChildren (c :: w) l = Ok None.
Proof.
  induction l as [|x l IH]; intros F; cbn [matchChildren]; [reflexivity|].
  inversion F as [|? ? (d & p & Ed & Nd) F']; subst. rewrite Ed. destruct (N.eqb_spec d c); [congruence|]. now rewrite IH.
Qed.
(** the word goes on below a child *)
Lemma down m c w m' l k q r : nkids m = l ++ k :: r -> Forall (other c) l -> npath k = c :: q ->
  step_to m (npath m ++ c :: w) m' -> exists k', step_to k (c :: w) k' /\ npath m' = npath m /\ nkids m' = l ++ k' :: r.
Proof.
  intros K F E (fuel & fp & v & nx & ir & I & <-). destruct fuel as [|fuel]; [discriminate|]. cbn [insertInternal] in I.
  replace (length (nkids m) =? 0) with false in I by (rewrite K, app_length; cbn; symmetry; apply Nat.eqb_neq; lia).
  rewrite !andb_false_r in I.
  rewrite (no_split (npath m)) in I. rewrite Nat.ltb_irrefl in I. cbn [bind] in I.
  replace (length (npath m) <? length (npath m ++ c :: w)) with true in I by (rewrite app_length; cbn; symmetry; apply Nat.ltb_lt; lia).
  replace (if 0 <? length (npath m) then skipn (length (npath m)) (npath m ++ c :: w) else npath m ++ c :: w) with (c :: w) in I.
  2: { destruct (npath m) as [|x p]; [reflexivity|]. exact (eq_sym (skip_pre (x :: p) _)). }
  rewrite K, (kids_hit c w k q r l F E) in I. cbn [bind] in I.
  destruct (insertInternal fuel k (c :: w) fp v nx) as [ir'| |] eqn:R; try discriminate. cbn [bind] in I. injection I as <-.
  exists (ir_node ir'). split; [|split; reflexivity]. exists fuel, fp, v, nx, ir'. auto.
Qed.
(** the fragment of the node is cut where the word leaves it *)
Lemma part m f a y b w m' : npath m = f ++ a :: y -> f <> [] -> a <> b -> step_to m (f ++ b :: w) m' ->
  npath m' = f /\ exists k x, nkids m' = [k; x] /\ npath k = a :: y /\ nkids k = nkids m /\ npath x = b :: w /\ nkids x = [].
Proof.
  intros P Nf Ne (fuel & fp & v & nx & ir & I & <-). destruct fuel as [|fuel]; [discriminate|]. cbn [insertInternal] in I.
  rewrite P in I. destruct f as [|c f]; [congruence|]. set (g := c :: f) in *.
  replace (length (g ++ a :: y) =? 0) with false in I by reflexivity. cbn [andb] in I.
  replace (0 <? length (g ++ a :: y)) with true in I by reflexivity. replace (0 <? length (g ++ b :: w)) with true in I by reflexivity.
  cbn [andb] in I. rewrite (cpl_part _ _ _ _ _ Ne) in I.
  replace (length g <? length (g ++ a :: y)) with true in I by (rewrite app_length; cbn; symmetry; apply Nat.ltb_lt; lia).
  destruct (split m (length g) nx) as [bs| |] eqn:S; cbn [bind] in I; try discriminate.
  replace (length g <? length (g ++ b :: w)) with true in I by (rewrite app_length; cbn; symmetry; apply Nat.ltb_lt; lia).
  replace (0 <? length g) with true in I by reflexivity.
  rewrite skip_pre in I.
  unfold split in S. rewrite P in S.
  assert (SK : skipn (length g) (g ++ a :: y) = a :: y) by now rewrite skipn_app, skipn_all, Nat.sub_diag.
  assert (FK : firstn (length g) (g ++ a :: y) = g) by (rewrite firstn_app, firstn_all, Nat.sub_diag, firstn_O, app_nil_r; reflexivity).
  rewrite SK, FK in S. destruct (_ <=? _); [|discriminate]. injection S as <-. cbn [nkids] in I.
  cbn iota in I. rewrite kids_miss in I.
  2: { constructor; [|constructor]. exists a, y. auto. }
  cbn [bind] in I. injection I as <-. cbn [ir_node insertAsLeaf set_kids npath nkids app]. split; [reflexivity|].
  eexists. eexists. split; [reflexivity|]. auto.
Qed.
(** a new leaf below a node *)
Lemma leaf m c w m' : Forall (other c) (nkids m) -> step_to m (npath m ++ c :: w) m' ->
  npath m' = npath m /\ exists x, nkids m' = nkids m ++ [x] /\ npath x = c :: w /\ nkids x = [].
Proof.
  intros F (fuel & fp & v & nx & ir & I & <-). destruct fuel as [|fuel]; [discriminate|]. cbn [insertInternal] in I.
  destruct ((length (npath m) =? 0) && _) eqn:Z.
  { injection I as <-. cbn [ir_node insertAsLeaf set_kids npath nkids]. split; [reflexivity|]. eexists. split; [reflexivity|]. 
    apply andb_true_iff in Z. destruct Z as [Z _]. apply Nat.eqb_eq in Z. destruct (npath m); [|discriminate]. auto. }
  rewrite (no_split (npath m)) in I. rewrite Nat.ltb_irrefl in I. cbn [bind] in I.
  replace (length (npath m) <? length (npath m ++ c :: w)) with true in I by (rewrite app_length; cbn; symmetry; apply Nat.ltb_lt; lia).
  replace (if 0 <? length (npath m) then skipn (length (npath m)) (npath m ++ c :: w) else npath m ++ c :: w) with (c :: w) in I.
  2: { destruct (npath m) as [|x p]; [reflexivity|]. exact (eq_sym (skip_pre (x :: p) _)). }
  rewrite (kids_miss c w _ F) in I. cbn [bind] in I. injection I as <-. cbn [ir_node insertAsLeaf set_kids npath nkids]. split; [reflexivity|].
  eexists. split; [reflexivity|]. auto.
Qed.

(** ** the tree *)
Fixpoint comb (n : nat) (f : list rune) (m : node) : Prop :=
  match n with
  | O => npath m = f ++ [122%N] /\ nkids m = []
  | S n => npath m = f /\ exists k1 k2, nkids m = [k1; k2] /\ comb n nam k1 /\ comb n pat k2
  end.
(** the first key of [keys n], and the others *)
Fixpoint key0 (n : nat) : list rune := match n with O => [122%N] | S n => nam ++ key0 n end.
Fixpoint others (n : nat) : list (list rune) := match n with O => [] | S n => map (app nam) (others n) ++ map (app pat) (keys n) end.
Lemma keys_eq n : keys n = key0 n :: others n.
Proof. induction n as [|n IH]; [reflexivity|]. cbn [keys key0 others]. rewrite IH at 1. cbn [map app]. reflexivity. Qed.
Lemma comb_same n f m m' : npath m = npath m' -> nkids m = nkids m' -> comb n f m -> comb n f m'.
Proof. intros P K. destruct n; cbn [comb]; rewrite P, K; auto. Qed.
Lemma comb_path n f m : comb n f m -> npath m = f ++ match n with O => [122%N] | S _ => [] end.
Proof. destruct n; cbn [comb]; intros [-> _]; [reflexivity|now rewrite app_nil_r]. Qed.

(** all words go on below the last child, without cutting it *)
Lemma steps_down m l k c q ws : forall m', nkids m = l ++ [k] -> Forall (other c) l -> npath k = c :: q ->
  Forall (fun w => w <> []) ws ->
  steps m (map (fun w => npath m ++ npath k ++ w) ws) m' ->
  exists k', steps k (map (fun w => npath k ++ w) ws) k' /\ npath m' = npath m /\ nkids m' = l ++ [k'] /\ npath k' = npath k.
Proof.
  revert m k. induction ws as [|w ws IH]; intros m k m' K F P W H; cbn [map] in H.
  - inversion H; subst. exists k. split; [constructor|auto].
  - inversion H as [|? ? m1 ? ? H1 H2]; subst. inversion W as [|? ? W1 W2]; subst.
    rewrite P in H1. cbn [app] in H1. destruct (down m c (q ++ w) m1 l k q [] K F P H1) as (k1 & S1 & P1 & K1).
    assert (Pk : npath k1 = npath k).
    { rewrite P. destruct S1 as (fuel & fp & v & nx & ir & I & <-). destruct fuel as [|fuel]; [discriminate|]. cbn [insertInternal] in I.
      rewrite P in I. set (g := c :: q) in *. change (c :: q ++ w) with (g ++ w) in I.
      replace (length g =? 0) with false in I by reflexivity. cbn [andb] in I. rewrite (no_split g w), Nat.ltb_irrefl in I. cbn [bind] in I.
      destruct w as [|w0 w]; [congruence|].
      replace (length g <? length (g ++ w0 :: w)) with true in I by (rewrite app_length; cbn; symmetry; apply Nat.ltb_lt; lia).
      destruct (matchChildren _ _) as [[[[l1 x] r1]|]| |]; cbn [bind] in I; try discriminate.
      - destruct (insertInternal fuel x _ fp v nx) as [ir'| |]; cbn [bind] in I; try discriminate. injection I as <-. exact P.
      - injection I as <-. exact P. }
    rewrite <- P1, <- Pk in H2. destruct (IH m1 k1 m' K1 F (eq_trans Pk P) W2 H2) as (k' & S' & P' & K' & Pk').
    exists k'. split; [|split; [congruence|split; [exact K'|congruence]]]. cbn [map]. econstructor; [|rewrite <- Pk; exact S'].
    rewrite P. exact S1.
Qed.
Lemma keys_ne n : Forall (fun w => w <> []) (keys n).
Proof.
  induction n as [|n IH]; cbn [keys]; [repeat constructor; discriminate|].
  apply Forall_app. split; apply Forall_forall; intros w H; apply in_map_iff in H; destruct H as (x & <- & _); discriminate.
Qed.
Lemma fill n : forall m l x c f m', nkids m = l ++ [x] -> Forall (other c) l -> npath x = (c :: f) ++ key0 n -> nkids x = [] ->
  steps m (map (fun w => npath m ++ (c :: f) ++ w) (others n)) m' ->
  npath m' = npath m /\ exists k, nkids m' = l ++ [k] /\ comb n (c :: f) k.
Proof.
  induction n as [|n IH]; intros m l x c f m' K F P Kx H.
  { cbn [others map] in H. inversion H; subst. split; [reflexivity|]. exists x. split; [exact K|]. cbn [comb]. auto. }
  cbn [others] in H. rewrite map_app, !map_map in H. destruct (steps_app _ _ _ _ H) as (m1 & H1 & H2). clear H.
  destruct (IH m l x c (f ++ nam) m1 K F) as (P1 & k & K1 & C1).
  { rewrite P. cbn [key0]. cbn [app]. now rewrite <- app_assoc. }
  { exact Kx. }
  { erewrite map_ext; [exact H1|]. intros w. cbn [app]. now rewrite <- app_assoc. }
  rewrite keys_eq in H2. cbn [map] in H2. inversion H2 as [|? ? m2 ? ? S2 H3]; subst.
  pose proof (comb_path _ _ _ C1) as Pk. cbn [app] in Pk. rewrite <- app_assoc in Pk.
  rewrite <- P1 in S2. cbn [app] in S2.
  destruct (down m1 c (f ++ pat ++ key0 n) m2 l k _ [] K1 F Pk S2) as (k2 & S3 & P2 & K2).
  destruct (part k (c :: f) 97%N (46%N :: match n with O => [122%N] | S _ => [] end) 58%N (46%N :: key0 n) k2) as (Q1 & ka & kb & Q2 & Q3 & Q4 & Q5 & Q6); auto; try discriminate.
  assert (Ca : comb n nam ka).
  { destruct n; cbn [comb] in C1 |- *; rewrite Q3, Q4; (split; [reflexivity|apply C1]). }
  destruct (steps_down m2 l k2 c f (map (app pat) (others n)) m') as (k' & S' & P' & K' & Pk').
  - exact K2.
  - exact F.
  - exact Q1.
  - apply Forall_forall. intros w Hw. apply in_map_iff in Hw. destruct Hw as (y & <- & _). discriminate.
  - rewrite map_map. rewrite Q1. erewrite map_ext; [exact H3|]. intros w. rewrite P2, P1. reflexivity.
  - destruct (IH k2 [ka] kb 58%N [46%N] k') as (R1 & kc & R2 & R3).
    + exact Q2.
    + constructor; [|constructor]. exists 97%N. eexists. split; [exact Q3|discriminate].
    + exact Q5.
    + exact Q6.
    + rewrite map_map in S'. exact S'.
    + split; [congruence|]. exists k'. split; [exact K'|]. cbn [comb]. split; [congruence|]. exists ka, kc. auto.
Qed.
(** the tree after all keys *)
Theorem maze_shape n r r' : npath r = [] -> nkids r = [] -> steps r (keys (S n)) r' -> comb (S n) [] r'.
Proof.
  intros P K H. cbn [keys] in H. destruct (steps_app _ _ _ _ H) as (r1 & H1 & H2). clear H. rewrite keys_eq in H1, H2. cbn [map] in H1, H2.
  inversion H1 as [|? ? ra ? ? S1 H3]; subst. inversion H2 as [|? ? rb ? ? S2 H4]; subst.
  destruct (leaf r 97%N (46%N :: key0 n) ra) as (Pa & x & Ka & Px & Kx).
  { rewrite K. constructor. }
  { rewrite P. exact S1. }
  rewrite K in Ka. cbn [app] in Ka.
  destruct (fill n ra [] x 97%N [46%N] r1 Ka) as (P1 & k & K1 & C1); auto.
  { rewrite Pa, P. exact H3. }
  cbn [app] in K1. pose proof (comb_path _ _ _ C1) as Pk.
  assert (Fo : Forall (other 58%N) [k]).
  { constructor; [|constructor]. exists 97%N. eexists. split; [exact Pk|discriminate]. }
  destruct (leaf r1 58%N (46%N :: key0 n) rb) as (Pb & y & Kb & Py & Ky).
  { rewrite K1. exact Fo. }
  { rewrite P1, Pa, P. exact S2. }
  rewrite K1 in Kb. cbn [app] in Kb.
  destruct (fill n rb [k] y 58%N [46%N] r' Kb) as (P2 & k2 & K2 & C2); auto.
  { rewrite Pb, P1, Pa, P. exact H4. }
  cbn [comb]. split; [congruence|]. exists k, k2. auto.
Qed.
