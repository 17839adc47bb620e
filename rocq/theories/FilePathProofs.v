(** Cleaned paths and the events of a watched directory: proofs. *)
From Coq Require Import List NArith Bool Arith Lia.
From Verif Require Import GoStr Utf8 FilePath.
Import ListNotations.
Open Scope nat_scope.

Definition no_slash (c : gostring) : Prop := ~ In slash c.
(** a name an entry of a directory can have *)
Definition name (n : gostring) : Prop := n <> [] /\ n <> dot /\ n <> dots /\ no_slash n.

Lemma slash_cons c s : no_slash (c :: s) -> (c =? slash)%N = false /\ no_slash s.
Proof. intros H. split; [apply N.eqb_neq; intros ->; apply H; now left|intros X; apply H; now right]. Qed.
Lemma comps_some s : exists x r, comps s = x :: r.
Proof. destruct s as [|c s]; cbn; [eauto|]. destruct (c =? slash)%N; [eauto|]. destruct (comps s); eauto. Qed.
Lemma comps_app a : forall t, comps (a ++ slash :: t) = comps a ++ comps t.
Proof.
  induction a as [|c a IH]; intros t; cbn [app comps]; [reflexivity|]. rewrite IH. destruct (c =? slash)%N; [reflexivity|].
  destruct (comps_some a) as (x & r & ->). reflexivity.
Qed.
Lemma comps_flat c : no_slash c -> comps c = [c].
Proof. induction c as [|x c IH]; intros H; [reflexivity|]. apply slash_cons in H. destruct H as [E H]. cbn [comps]. rewrite E, (IH H). reflexivity. Qed.
Lemma comps_noslash s : Forall no_slash (comps s).
Proof.
  induction s as [|c s IH]; cbn [comps]; [constructor; [intros []|constructor]|]. destruct (N.eqb_spec c slash) as [E|E]; [constructor; [intros []|exact IH]|].
  destruct (comps s) as [|x r]; [repeat constructor; intros [X|[]]; auto|]. inversion IH; subst. constructor; auto. intros [X|X]; auto.
Qed.
Lemma comps_joined cs : cs <> [] -> Forall no_slash cs -> comps (joined cs) = cs.
Proof.
  induction cs as [|c cs IH]; intros N F; [easy|]. inversion F; subst. destruct cs as [|c2 cs]; cbn [joined].
  - now apply comps_flat.
  - rewrite comps_app, (comps_flat c) by assumption. cbn [app]. f_equal. apply IH; [discriminate|assumption].
Qed.

(** ** what is left of the components: names, preceded by ".." in a path that is not rooted *)
Lemma eqb_ne a b : a <> b -> str_eqb a b = false.
Proof. intros N. destruct (str_eqb a b) eqn:E; auto. apply str_eqb_eq in E. congruence. Qed.
Lemma eqb_yes a : str_eqb a a = true. Proof. now apply str_eqb_eq. Qed.
(** a stack: the last component first *)
Inductive stack (r : bool) : list gostring -> Prop :=
  | st_nil : stack r []
  | st_up st : r = false -> Forall (eq dots) st -> stack r (dots :: st)
  | st_name c st : name c -> stack r st -> stack r (c :: st).
Lemma ups_stack st : Forall (eq dots) st -> stack false st.
Proof. destruct 1 as [|x st E F]; [constructor|]. subst x. now constructor. Qed.
Lemma step_stack r st c : no_slash c -> stack r st -> stack r (comp_step r st c).
Proof.
  intros NS S. unfold comp_step. destruct (str_eqb c []) eqn:E1; [exact S|]. destruct (str_eqb c dot) eqn:E2; [exact S|]. cbn [orb].
  destruct (str_eqb c dots) eqn:E3.
  - destruct S as [|st R F|x st Nx S].
    + destruct r; [constructor|]. constructor; auto.
    + cbn. constructor; auto.
    + rewrite eqb_ne by apply Nx. exact S.
  - apply st_name; [|exact S]. repeat split; auto; intros ->; discriminate.
Qed.
Lemma norm_stack r cs : Forall no_slash cs -> stack r (norm r cs).
Proof.
  intros F. unfold norm. assert (S : stack r []) by constructor. revert S. generalize (@nil gostring). induction F as [|c cs N F IH]; intros st S; [exact S|].
  cbn [fold_left]. apply IH. now apply step_stack.
Qed.
Lemma step_name r st n : name n -> comp_step r st n = n :: st.
Proof. intros (A & B & C & _). unfold comp_step. now rewrite !eqb_ne. Qed.
(** the components of a stack give it back *)
Lemma refold_ups st : Forall (eq dots) st -> fold_left (comp_step false) (rev st) [] = st.
Proof.
  induction 1 as [|x st E F IH]; [reflexivity|]. subst x. cbn [rev]. rewrite fold_left_app, IH. cbn [fold_left]. unfold comp_step.
  change (str_eqb dots []) with false. change (str_eqb dots dot) with false. cbn [orb]. rewrite eqb_yes. destruct F as [|y st E F]; [reflexivity|]. subst y. now rewrite eqb_yes.
Qed.
Lemma refold r st : stack r st -> fold_left (comp_step r) (rev st) [] = st.
Proof.
  induction 1 as [|st R F|c st Nc S IH]; [reflexivity| |].
  - subst r. apply refold_ups. now constructor.
  - cbn [rev]. rewrite fold_left_app, IH. cbn [fold_left]. now apply step_name.
Qed.
Lemma stack_noslash r st : stack r st -> Forall no_slash st.
Proof.
  assert (ND : no_slash dots) by (intros [X|[X|[]]]; discriminate X).
  induction 1 as [|st R F|c st Nc S IH]; constructor; auto; [|apply Nc]. eapply Forall_impl; [|exact F]. intros ? <-. exact ND.
Qed.
Lemma stack_ne r st : stack r st -> Forall (fun c => c <> []) st.
Proof.
  induction 1 as [|st R F|c st Nc S IH]; constructor; auto; [discriminate| |apply Nc]. eapply Forall_impl; [|exact F]. intros ? <-. discriminate.
Qed.

(** ** rendering *)
Lemma rooted_joined cs : Forall no_slash cs -> Forall (fun c => c <> []) cs -> rooted (joined cs) = false.
Proof.
  intros F N. destruct F as [|c cs Fc F]; [reflexivity|]. inversion N; subst. destruct c as [|x c]; [congruence|]. apply slash_cons in Fc. destruct cs; cbn; apply Fc.
Qed.
Lemma Forall_rev' {A} (P : A -> Prop) l : Forall P l -> Forall P (rev l).
Proof. intros F. apply Forall_forall. intros x H. apply in_rev in H. rewrite Forall_forall in F. auto. Qed.
Lemma render_rooted r st : stack r st -> rooted (render r (rev st)) = r.
Proof.
  intros S. unfold render. destruct r; [reflexivity|]. destruct (rev st) as [|c cs] eqn:E; [reflexivity|]. rewrite <- E.
  apply rooted_joined; apply Forall_rev'; [now apply stack_noslash with false|now apply stack_ne with false].
Qed.
(** following a cleaned path with more components is following the stack *)
Lemma render_norm r st : stack r st -> fold_left (comp_step r) (comps (render r (rev st))) [] = st.
Proof.
  intros S. pose proof (Forall_rev' _ _ (stack_noslash r st S)) as F. unfold render. destruct r.
  - change (slash :: joined (rev st)) with ([] ++ slash :: joined (rev st)). rewrite comps_app. cbn [comps app fold_left]. change (comp_step true [] []) with (@nil gostring).
    destruct (rev st) as [|c cs] eqn:E.
    + cbn. unfold comp_step. cbn. rewrite <- (rev_involutive st), E. reflexivity.
    + rewrite comps_joined by (congruence || exact F). rewrite <- E. now apply refold.
  - destruct (rev st) as [|c cs] eqn:E.
    + rewrite <- (rev_involutive st), E. reflexivity.
    + rewrite comps_joined by (congruence || exact F). rewrite <- E. now apply refold.
Qed.
Lemma clean_stack s : stack (rooted s) (norm (rooted s) (comps s)).
Proof. apply norm_stack, comps_noslash. Qed.
Lemma rooted_app s t : s <> [] -> rooted (s ++ t) = rooted s.
Proof. now destruct s. Qed.
Lemma render_some r cs : Forall (fun c => c <> []) cs -> render r cs <> [].
Proof. intros F. unfold render. destruct r; [discriminate|]. destruct F as [|c cs Fc F]; [discriminate|]. destruct c as [|x c]; [congruence|]. destruct cs; discriminate. Qed.
Lemma clean_some s : clean s <> [].
Proof. apply render_some, Forall_rev'. eapply stack_ne. apply clean_stack. Qed.
Lemma clean_rooted s : rooted (clean s) = rooted s.
Proof. unfold clean. apply render_rooted, clean_stack. Qed.

(** the cleaned path, continued, cleans to the path continued *)
Theorem clean_join s t : s <> [] -> clean (clean s ++ slash :: t) = clean (s ++ slash :: t).
Proof.
  intros NE. unfold clean at 1. rewrite (rooted_app (clean s)) by apply clean_some. rewrite clean_rooted.
  unfold clean at 2. rewrite (rooted_app s) by exact NE. do 2 f_equal. unfold norm. rewrite !comps_app, !fold_left_app. f_equal.
  unfold clean. apply render_norm, clean_stack.
Qed.
Theorem clean_clean s : clean (clean s) = clean s.
Proof.
  unfold clean at 1. rewrite clean_rooted. unfold clean at 2. do 2 f_equal. unfold norm, clean. apply render_norm, clean_stack.
Qed.
Lemma fold_same r st : comp_step r st [] = st. Proof. reflexivity. Qed.
Lemma clean_name dir n : clean dir ++ slash :: n = event_name dir n. Proof. reflexivity. Qed.

(** ** Split *)
Lemma split_spec s : let (d, b) := split_path s in s = d ++ b /\ no_slash b /\ (d = [] \/ exists d', d = d' ++ [slash]).
Proof.
  induction s as [|c s IH]; cbn [split_path]; [repeat split; auto; intros []|]. destruct (split_path s) as [d b]. destruct IH as (E & NS & D).
  destruct d as [|x d].
  - destruct (N.eqb_spec c slash) as [->|NE]; cbn in E; subst s.
    + split; [reflexivity|]. split; [exact NS|]. right. exists []. reflexivity.
    + split; [reflexivity|]. split; [|auto]. intros [X|X]; auto.
  - split; [cbn; now rewrite E|]. split; [exact NS|]. right. destruct D as [D|(d' & D)]; [discriminate|]. exists (c :: d'). cbn. now rewrite <- D.
Qed.
(** the event for the entry that the path names cleans to the cleaned path *)
Theorem event_clean file n : no_slash n -> clean (event_name (fst (split_path file)) n) = clean (fst (split_path file) ++ n).
Proof.
  intros NS. pose proof (split_spec file) as S. destruct (split_path file) as [d b]. cbn [fst]. destruct S as (_ & _ & [->|(d' & ->)]).
  - unfold event_name. change (clean []) with dot. unfold clean. destruct n as [|x n]; [reflexivity|]. cbn [app].
    assert (R : rooted (x :: n) = false) by (cbn; apply slash_cons in NS; apply NS).
    change (rooted (dot ++ slash :: x :: n)) with false. rewrite R. do 2 f_equal.
  - unfold event_name. rewrite clean_join by (destruct d'; discriminate).
    assert (E : forall t, (d' ++ [slash]) ++ t = d' ++ slash :: t) by (intros t; now rewrite <- app_assoc).
    rewrite !E. unfold clean. assert (R : rooted (d' ++ slash :: slash :: n) = rooted (d' ++ slash :: n)) by (destruct d'; reflexivity). rewrite R. do 2 f_equal.
    unfold norm. rewrite (comps_app d' n), (comps_app d' (slash :: n)), !fold_left_app. change (comps (slash :: n)) with ([] :: comps n). reflexivity.
Qed.
(** entries of one directory have paths of their own *)
Lemma norm_entry r d n : name n -> no_slash n -> (d = [] \/ exists d', d = d' ++ [slash]) -> exists st, norm r (comps (d ++ n)) = n :: st /\ stack r st /\
  forall m, name m -> norm r (comps (d ++ m)) = m :: st.
Proof.
  intros Nn NS [->|(d' & ->)].
  - assert (G : forall m, name m -> norm r (comps ([] ++ m)) = [m]).
    { intros m Nm. cbn [app]. rewrite comps_flat by apply Nm. cbn. now apply step_name. }
    exists []. split; [now apply G|]. split; [constructor|exact G].
  - assert (G : forall m, name m -> norm r (comps ((d' ++ [slash]) ++ m)) = m :: norm r (comps d')).
    { intros m Nm. rewrite <- app_assoc. cbn [app]. unfold norm. rewrite comps_app, fold_left_app, (comps_flat m) by apply Nm. cbn [fold_left]. now apply step_name. }
    exists (norm r (comps d')). split; [now apply G|]. split; [apply norm_stack, comps_noslash|exact G].
Qed.
Lemma render_inj r a b : stack r a -> stack r b -> render r (rev a) = render r (rev b) -> a = b.
Proof. intros A B E. rewrite <- (render_norm r a A), <- (render_norm r b B). now rewrite E. Qed.
Theorem entry_inj file n m : name n -> name m -> clean (fst (split_path file) ++ n) = clean (fst (split_path file) ++ m) -> n = m.
Proof.
  intros Nn Nm E. pose proof (split_spec file) as S. destruct (split_path file) as [d b]. cbn [fst] in *. destruct S as (_ & _ & D).
  assert (R : forall k, name k -> rooted (d ++ k) = rooted d).
  { intros k Nk. destruct D as [->|(d' & ->)]; [|rewrite <- app_assoc; destruct d'; reflexivity]. destruct k as [|x k]; [now destruct Nk|]. cbn. apply (slash_cons x k), Nk. }
  unfold clean in E. rewrite !R in E by assumption. apply render_inj in E; [|apply norm_stack, comps_noslash|apply norm_stack, comps_noslash].
  destruct (norm_entry (rooted d) d n Nn (proj2 (proj2 (proj2 Nn))) D) as (st & E1 & _ & E2). rewrite E1, (E2 m Nm) in E. congruence.
Qed.

(** ** which events are taken *)
Definition dir_of (file : gostring) := fst (split_path file).
Definition base_of (file : gostring) := snd (split_path file).
Lemma path_of file : dir_of file ++ base_of file = file.
Proof. unfold dir_of, base_of. pose proof (split_spec file) as S. destruct (split_path file). symmetry. apply S. Qed.
(** no link at the entry, or a link to an entry of the directory *)
Theorem mine_inside file d t n : name (base_of file) -> name n -> name t -> follow links d (base_of file) = Some (inl t) ->
  exists real, real_path d file = Some real /\ (mine file real n = true <-> n = t \/ (n = base_of file /\ clean file = file)).
Proof.
  intros Nb Nn Nt F. pose proof (path_of file) as P.
  assert (RP : real_path d file = Some (clean (dir_of file ++ t))).
  { unfold real_path. unfold dir_of, base_of in *. destruct (split_path file) as [dr b]. cbn [fst snd] in *. unfold eval_links. rewrite F. cbn. now rewrite clean_clean. }
  exists (clean (dir_of file ++ t)). split; [exact RP|]. unfold mine. cbv zeta. rewrite event_clean by apply Nn. fold (dir_of file). rewrite orb_true_iff, !str_eqb_eq. split.
  - intros [E|E]; [left; now apply (entry_inj file)|].
    assert (n = base_of file); [|right; split; auto; subst n; rewrite P in E; exact E].
    apply (entry_inj file); auto. fold (dir_of file). rewrite P, E. rewrite <- E. now rewrite clean_clean.
  - intros [->|[-> E]]; [now left|]. right. now rewrite P.
Qed.
(** a link out of the directory *)
Theorem mine_away file d p c n : name (base_of file) -> name n -> follow links d (base_of file) = Some (inr (p, c)) ->
  (forall m, name m -> clean p <> clean (dir_of file ++ m)) ->
  exists real, real_path d file = Some real /\ (mine file real n = true <-> n = base_of file /\ clean file = file).
Proof.
  intros Nb Nn F AW. pose proof (path_of file) as P.
  assert (RP : real_path d file = Some (clean p)).
  { unfold real_path. unfold dir_of, base_of in *. destruct (split_path file) as [dr b]. cbn [fst snd] in *. unfold eval_links. rewrite F. cbn. now rewrite clean_clean. }
  exists (clean p). split; [exact RP|]. unfold mine. cbv zeta. rewrite event_clean by apply Nn. fold (dir_of file). rewrite orb_true_iff, !str_eqb_eq. split.
  - intros [E|E]; [now destruct (AW n Nn)|].
    assert (n = base_of file); [|split; auto; subst n; rewrite P in E; exact E].
    apply (entry_inj file); auto. fold (dir_of file). rewrite P, E. rewrite <- E. now rewrite clean_clean.
  - intros [-> E]. right. now rewrite P.
Qed.

(** ** changes of the content *)
Lemma ddo_other d x m : m <> dname x -> ddo d x m = d m.
Proof. intros N. destruct x; cbn in *; now rewrite eqb_ne. Qed.
(** an entry that is no link: its content changes by events for it only, and these are taken *)
Theorem file_changes file d0 d x c : name (base_of file) -> name (dname x) -> (exists c0, d0 (base_of file) = Some (File c0)) ->
  d (base_of file) = Some (File c) -> content (ddo d x) (base_of file) <> content d (base_of file) ->
  exists real, real_path d0 file = Some real /\ mine file real (dname x) = true.
Proof.
  intros Nb Nx (c0 & E0) E C. destruct (mine_inside file d0 (base_of file) (dname x)) as (real & R & M); auto.
  { unfold links. cbn [follow]. now rewrite E0. }
  exists real. split; [exact R|]. apply M. left. destruct (list_eq_dec N.eq_dec (dname x) (base_of file)) as [X|X]; auto. exfalso. apply C.
  unfold content, links. cbn [follow]. rewrite ddo_other by auto. rewrite E. rewrite ddo_other by auto. reflexivity.
Qed.
(** and nothing else is *)
Theorem file_others file d0 n : name (base_of file) -> name n -> (exists c0, d0 (base_of file) = Some (File c0)) -> n <> base_of file ->
  exists real, real_path d0 file = Some real /\ mine file real n = false.
Proof.
  intros Nb Nn (c0 & E0) NE. destruct (mine_inside file d0 (base_of file) n) as (real & R & M); auto.
  { unfold links. cbn [follow]. now rewrite E0. }
  exists real. split; [exact R|]. destruct (mine file real n); auto. destruct M as [M _]. destruct (M eq_refl) as [X|[X _]]; congruence.
Qed.
(** a clean path through a link inside the directory that stays as it is *)
Theorem link_changes file d0 d t x : name (base_of file) -> name (dname x) -> name t -> clean file = file ->
  d0 (base_of file) = Some (Link t) -> d (base_of file) = Some (Link t) -> (exists c0, d0 t = Some (File c0)) -> (exists c, d t = Some (File c)) ->
  content (ddo d x) (base_of file) <> content d (base_of file) ->
  exists real, real_path d0 file = Some real /\ mine file real (dname x) = true.
Proof.
  intros Nb Nx Nt CL L0 L (c0 & E0) (c & E) C. destruct (mine_inside file d0 t (dname x)) as (real & R & M); auto.
  { unfold links. cbn [follow]. rewrite L0. cbn [follow]. now rewrite E0. }
  exists real. split; [exact R|]. apply M. destruct (list_eq_dec N.eq_dec (dname x) (base_of file)) as [X|X]; [auto|].
  destruct (list_eq_dec N.eq_dec (dname x) t) as [Y|Y]; [auto|]. exfalso. apply C.
  unfold content, links. cbn [follow]. rewrite !ddo_other by auto. rewrite L. cbn [follow]. rewrite !ddo_other by auto. rewrite E. rewrite !ddo_other by auto. reflexivity.
Qed.
