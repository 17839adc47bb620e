(** GetR, GetM and To of a key: the answer comes from what the search finds, and the numbers of the nodes do not matter. *)
From Coq Require Import List NArith Bool Arith Lia.
From Verif Require Import GoStr Utf8 Node NodeWf Trie TreeOps Spec Refine Reach Effect Heap HeapWalk HeapGet HeapSee HeapSeeProofs NoId Cvter HeapExport.
Import ListNotations.
Open Scope nat_scope.

(** what is taken from the nodes of a walk *)
Definition flt_of (q : ask) : option (shown -> bool) := match q with AskR _ _ => None | AskM _ o | AskTo _ o => ho_filter o end.
Definition take1 (d : rune) (flt : option (shown -> bool)) (n : node) : option item :=
  if exported d n && match flt with Some f => f (show n) | None => true end then Some (Item (npathS n) (npath n) (ndata n)) else None.
Definition picks (d : rune) (flt : option (shown -> bool)) (n : node) : list (option item) := map (take1 d flt) (walk n).
(** the answers, from what the search found *)
Definition getR_of (h : hdl) (defs : list (option gmap)) (s : Trie.sres) : res (option gmap) :=
  match Trie.s_node s with
  | Some n => Ok (Some (put_items (picks (hdelim h) None n)))
  | None => if Trie.s_partial s then Panic else Ok (last_default None defs)
  end.
Definition getM_of (order : gmap -> gmap) (h : hdl) (p : gostring) (o : hopts) (s : Trie.sres) : res (option gmap) :=
  match Trie.s_node s with
  | Some n =>
      do m <- foldM (path_item (hdelim h) (ho_keep o) (split_str (Join (hdelim h) [hprefix h; p]) (enc1 (hdelim h))) (getM_prelen h p)) (picks (hdelim h) (ho_filter o) n) [];
      Ok (Some (if ho_noflat o then splitCompactKeys (hdelim h) (order m) else m))
  | None => if Trie.s_partial s then Panic else Ok None
  end.
Definition ask_of (order : gmap -> gmap) (h : hdl) (q : ask) (s : Trie.sres) : res (option gmap) :=
  match q with
  | AskR _ defs => getR_of h defs s
  | AskM p o => getM_of order h p o s
  | AskTo p o =>
      do r <- getM_of order h p o s;
      match r with
      | Some m => Ok (Some (splitCompactKeys (hdelim h) (order m)))
      | None => do r2 <- getR_of h [] s; Ok (match r2 with Some m => Some (splitCompactKeys (hdelim h) (order m)) | None => None end)
      end
  end.

Lemma put_eq d ns : put_items (map (take1 d None) ns) = put_walk d ns.
Proof.
  unfold put_items, put_walk. generalize (@nil (gostring * gval)). induction ns as [|n ns IH]; intros m; [reflexivity|]. cbn [map fold_left].
  rewrite IH. f_equal. unfold take1. rewrite andb_true_r. now destruct (exported d n).
Qed.
Lemma path_eq d o pre prelen ns : forall m, foldM (path_item d (ho_keep o) pre prelen) (map (take1 d (ho_filter o)) ns) m = foldM (getM_cb d (opts_on o) pre prelen) ns m.
Proof.
  induction ns as [|n ns IH]; intros m; [reflexivity|]. cbn [map foldM].
  replace (getM_cb d (opts_on o) pre prelen m n) with (path_item d (ho_keep o) pre prelen m (take1 d (ho_filter o) n)).
  - destruct (path_item _ _ _ _ _ _); cbn [bind]; auto.
  - unfold getM_cb, take1, passes, opts_on. cbn [o_filter o_keep]. destruct (ho_filter o) as [f|]; cbn [option_map]; destruct (_ && _); reflexivity.
Qed.
Lemma getR_search rf h t p defs s : is_root_path p = false -> search rf h t (full h p) = Ok s -> GetR rf h t p defs = getR_of h defs s.
Proof.
  intros RP E. unfold GetR, getR_of, Locate. rewrite RP, E. cbn [bind]. unfold picks. destruct (Trie.s_node s) as [n|]; cbn [bind].
  - rewrite put_eq. now destruct (Trie.s_partial s).
  - now destruct (Trie.s_partial s).
Qed.
Lemma getM_search order rf h t p o s : is_root_path p = false -> search rf h t (full h p) = Ok s -> GetM rf order h t p (opts_on o) = getM_of order h p o s.
Proof.
  intros RP E. unfold GetM, getM_of, Locate. cbv zeta. rewrite RP, E. cbn [bind]. unfold picks. destruct (Trie.s_node s) as [n|]; cbn [bind].
  - rewrite path_eq. now destruct (Trie.s_partial s).
  - now destruct (Trie.s_partial s).
Qed.
Lemma ask_search order rf h t q s : is_root_path (ask_path q) = false -> search rf h t (full h (ask_path q)) = Ok s -> ask_on order rf h t q = ask_of order h q s.
Proof.
  intros RP E. destruct q as [p defs|p o|p o]; cbn [ask_path ask_on ask_of] in *; [now apply getR_search|now apply getM_search|].
  unfold To. rewrite (getM_search order rf h t p o s RP E). destruct (getM_of order h p o s) as [[m|]| |]; cbn [bind]; auto.
  now rewrite (getR_search rf h t p [] s RP E).
Qed.

(** ** the numbers of the nodes *)
Definition sees (flt : option (shown -> bool)) : Prop :=
  match flt with None => True | Some f => forall a b key frag branch v, f (Shown a key frag branch v) = f (Shown b key frag branch v) end.
Lemma blind_sees q : blind q -> sees (flt_of q).
Proof. destruct q; cbn; auto. Qed.
Lemma take1_noid d flt n n' : sees flt -> heads n n' -> take1 d flt n = take1 d flt n'.
Proof.
  intros S (H1 & H2 & H3 & _ & _ & _ & H7). unfold take1, exported, Node.key, show, isBranch. rewrite H1, H2, H3, H7.
  destruct flt as [f|]; [|reflexivity]. now rewrite (S (nid n) (nid n')).
Qed.
Lemma picks_noid d flt : sees flt -> forall n n', noid n = noid n' -> picks d flt n = picks d flt n'.
Proof.
  intros S. unfold picks. induction n as [n IH] using node_ind'. intros n' H. apply noid_inv in H as [H K]. rewrite (walk_eq n), (walk_eq n'). cbn [map].
  f_equal; [now apply take1_noid|]. revert K. generalize (nkids n'). induction (nkids n) as [|k ks IHk]; intros [|k' ks'] K; cbn [map flat_map] in *; try discriminate; [reflexivity|].
  inversion IH as [|? ? A B]; subst. rewrite !map_app. f_equal; [apply A; congruence|apply IHk; auto; congruence].
Qed.
Lemma ask_noid order h q s s' : blind q -> Trie.s_partial s = Trie.s_partial s' ->
  (Trie.s_node s = None /\ Trie.s_node s' = None \/ exists n n', Trie.s_node s = Some n /\ Trie.s_node s' = Some n' /\ noid n = noid n') ->
  ask_of order h q s = ask_of order h q s'.
Proof.
  intros B P Q.
  assert (GR : forall defs, getR_of h defs s = getR_of h defs s').
  { intros defs. unfold getR_of. rewrite P. destruct Q as [[-> ->]|(n & n' & -> & -> & N)]; [reflexivity|]. now rewrite (picks_noid _ None I n n' N). }
  assert (GM : forall p o, sees (ho_filter o) -> getM_of order h p o s = getM_of order h p o s').
  { intros p o X. unfold getM_of. rewrite P. destruct Q as [[-> ->]|(n & n' & -> & -> & N)]; [reflexivity|]. now rewrite (picks_noid _ _ X n n' N). }
  destruct q as [p defs|p o|p o]; cbn [ask_of]; [apply GR|apply GM; exact B|]. rewrite (GM p o B), (GR []). reflexivity.
Qed.
