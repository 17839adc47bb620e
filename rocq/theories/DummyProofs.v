(** The dummy store beside a new one. *)
From Coq Require Import String.
From Coq Require Import List NArith Bool Arith.
From Verif Require Import GoStr Utf8 Node Trie Cvter Dummy.
Import ListNotations.
Open Scope list_scope.

Lemma search_new rf h w : w <> [] -> search rf h newTrie w = Ok (SRes None None true []).
Proof.
  intros N. unfold search, probe. destruct (runes w) as [|a l] eqn:E; [elim N; now apply (proj1 (runes_nil_iff w))|reflexivity].
Qed.
Lemma search_new_nil rf h : search rf h newTrie [] = Ok (SRes (Some (root newTrie)) None false []).
Proof. reflexivity. Qed.

(** what agrees, for every path but the empty one *)
Lemma dummy_agrees rf h s path : full h path <> [] ->
  Get rf h newTrie path = Ok (du_Get s path) /\
  MustGet rf h newTrie path = Ok (du_MustGet s path) /\
  Has rf h newTrie path = Ok (du_Has s path) /\
  Remove rf h newTrie path = Ok (newTrie, snd (du_Remove s path)) /\
  RemoveEx rf h newTrie path = Ok (newTrie, snd (fst (fst (du_RemoveEx s path))), snd (fst (du_RemoveEx s path)), snd (du_RemoveEx s path)) /\
  GetEx rf h newTrie path = Ok (du_GetEx s path) /\
  (forall d c, SetComment rf h newTrie path d c = Ok (newTrie, snd (du_SetComment s path d c))) /\
  (forall g, SetTag rf h newTrie path g = Ok (newTrie, snd (du_SetTag s path g))).
Proof.
  intros N. unfold Get, MustGet, Query, Has, Remove, RemoveEx, GetEx, SetComment, SetTag.
  rewrite (search_new rf h _ N). cbn. repeat split.
Qed.
(** Get, MustGet, GetEx and Remove agree for the empty path too *)
Lemma dummy_agrees_always rf h s path :
  Get rf h newTrie path = Ok (du_Get s path) /\
  MustGet rf h newTrie path = Ok (du_MustGet s path) /\
  Remove rf h newTrie path = Ok (newTrie, snd (du_Remove s path)) /\
  GetEx rf h newTrie path = Ok (du_GetEx s path).
Proof.
  destruct (full h path) as [|a l] eqn:E.
  - unfold Get, MustGet, Query, Remove, RemoveEx, GetEx. rewrite E, search_new_nil. cbn. repeat split.
  - destruct (dummy_agrees rf h s path) as (H1 & H2 & _ & H3 & _ & H4 & _); [now rewrite E|]. auto.
Qed.
(** the getters of a type: with no default given the values agree, the errors never do *)
Lemma dummy_getters {A} rf h s path (conv : gval -> A) (zero : A) defs :
  GetX rf conv zero h newTrie path defs = Ok (last_default zero defs, false) /\
  MustX rf conv zero h newTrie path defs = Ok (last_default zero defs) /\
  (defs = [] -> MustX rf conv zero h newTrie path defs = Ok (du_MustX zero s path defs)) /\
  GetX rf conv zero h newTrie path defs <> Ok (du_GetX zero s path defs).
Proof.
  assert (Q : exists q, Query rf h newTrie path = Ok q /\ q_found q = false).
  { unfold Query. destruct (full h path) as [|a l] eqn:E.
    - rewrite search_new_nil. cbn. eexists. split; reflexivity.
    - rewrite search_new by discriminate. cbn. eexists. split; reflexivity. }
  destruct Q as (q & Q & F). unfold GetX, MustX. rewrite Q. cbn [bind]. rewrite F.
  repeat split; [now intros ->|]. unfold du_GetX. congruence.
Qed.
Lemma dummy_meta rf h s path :
  GetDesc rf h newTrie path = Ok ([], false) /\ GetTag rf h newTrie path = Ok (GNil, false) /\
  GetComment rf h newTrie path = Ok ([], false) /\
  snd (du_GetDesc s path) = true /\ snd (du_GetTag s path) = true /\ snd (du_GetComment s path) = true.
Proof.
  unfold GetDesc, GetTag, GetComment, getNodeFast. destruct (full h path) as [|a l] eqn:E.
  - rewrite search_new_nil. cbn. repeat split.
  - rewrite search_new by discriminate. cbn. repeat split.
Qed.
(** the prefix set is the one of a new store if no part is empty *)
Lemma join_loop_true d l : (forall x, In x l -> x <> []) ->
  join_loop d true l = flat_map (fun x => [delim_byte d] ++ x) l.
Proof.
  induction l as [|x l IH]; intros H; [reflexivity|]. cbn [join_loop flat_map].
  assert (X : is_nil x = false) by (destruct x; [now elim (H []); [left|]|reflexivity]).
  rewrite X, IH by (intros; apply H; now right). now rewrite <- app_assoc.
Qed.
Lemma join_str_flat sep a l : join_str (a :: l) sep = a ++ flat_map (fun x => sep ++ x) l.
Proof.
  revert a. induction l as [|b l IH]; intros a; [cbn; now rewrite app_nil_r|].
  cbn [flat_map]. rewrite <- app_assoc, <- IH. reflexivity.
Qed.
Lemma dummy_prefix s h ps : hdelim h = dotChar -> (forall x, In x ps -> x <> []) ->
  hprefix (setPrefix h ps) = du_Prefix (du_SetPrefix s ps).
Proof.
  intros D H. unfold setPrefix, du_SetPrefix, du_Prefix. cbn [hprefix du_p]. rewrite D.
  destruct ps as [|a [|b l]]; try reflexivity.
  assert (A : is_nil a = false) by (destruct a; [now elim (H []); [left|]|reflexivity]).
  cbn [Join]. rewrite A. cbn [join_loop]. rewrite A. cbn [app].
  rewrite join_str_flat. f_equal.
  change (s2b "."%string) with [delim_byte dotChar].
  rewrite <- join_loop_true by (intros; apply H; now right). reflexivity.
Qed.

(** what Set on a new store reports, against that of the dummy store *)
Theorem dummy_set h s path v : exists t id,
  Set_ h newTrie path v = Ok (t, id, snd (du_Set s path v)) /\ snd (fst (du_Set s path v)) <> Some id /\
  fst (fst (du_Set s path v)) = s.
Proof.
  unfold Set_, insert_root. cbv zeta. destruct (runes _) as [|c w];
    do 2 eexists; (split; [reflexivity|split; [discriminate|reflexivity]]).
Qed.

(** WithPrefix: the dummy store has its prefix as before *)
Lemma join_loop_nil d w l : join_loop d w l = [] <-> (forall x, In x l -> x = []).
Proof.
  revert w. induction l as [|a l IH]; intros w; [split; [now intros _ x []|reflexivity]|]. cbn [join_loop].
  destruct a as [|c a]; cbn [is_nil].
  - rewrite IH. split; [intros H x [<-|I]; [reflexivity|now apply H]|intros H x I; apply H; now right].
  - split; [destruct w; discriminate|]. intros H. exfalso. specialize (H (c :: a) (or_introl eq_refl)). discriminate.
Qed.
Lemma Join_nil d l : Join d l = [] <-> (forall x, In x l -> x = []).
Proof.
  induction l as [|a l IH]; [split; [now intros _ x []|reflexivity]|]. destruct l as [|b l].
  - cbn [Join]. split; [intros -> x [<-|[]]; reflexivity|intros H; apply H; now left].
  - change (Join d (a :: b :: l)) with (if is_nil a then Join d (b :: l) else join_loop d false (a :: b :: l)).
    destruct a as [|c a]; cbn [is_nil]; [|apply join_loop_nil].
    rewrite IH. split; [intros H x [<-|I]; [reflexivity|now apply H]|intros H x I; apply H; now right].
Qed.
Theorem dummy_view h s ps : hprefix h = du_Prefix s ->
  (hprefix (withPrefix h ps) = du_Prefix (du_WithPrefix s ps) <-> (forall x, In x ps -> x = [])).
Proof.
  intros E. change (du_Prefix (du_WithPrefix s ps)) with (du_Prefix s). rewrite <- E. cbn [withPrefix hprefix].
  unfold join1. destruct (hprefix h) as [|c p]; cbn [is_nil]; [apply Join_nil|].
  destruct ps as [|a ps]; cbn [is_nil]; [split; [now intros _ x []|reflexivity]|].
  rewrite <- (join_loop_nil (hdelim h) true (a :: ps)). split; [|intros ->; apply app_nil_r].
  intros H. apply (app_inv_head (c :: p)). now rewrite app_nil_r.
Qed.
Theorem dummy_walk rf h s path :
  Walk rf h newTrie path = Ok [root newTrie] /\ Walk rf h newTrie path <> Ok (du_Walk s path).
Proof.
  assert (W : Walk rf h newTrie path = Ok [root newTrie]).
  { destruct path as [|a l]; [reflexivity|]. unfold Walk. cbn [is_nil]. rewrite search_new by discriminate. reflexivity. }
  split; [exact W|]. rewrite W. discriminate.
Qed.
Theorem dummy_locate rf h s path : full h path <> [] ->
  Locate rf h newTrie path = Ok (None, false, true, false, []) /\ Locate rf h newTrie path <> Ok (du_Locate s path).
Proof. intros N. unfold Locate. rewrite (search_new rf h _ N). cbn. split; [reflexivity|discriminate]. Qed.
