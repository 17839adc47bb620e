(** What the hcl codec writes and what the hjson codec reads. *)
From Coq Require Import List NArith ZArith Bool Arith Lia.
From Verif Require Import GoStr Utf8 Trie Cvter Nested Export MergeProofs Codecs.
Import ListNotations.
Open Scope list_scope.

(** ** hcl *)
(** ordinary values: booleans, integers, strings, and non-empty lists of values of one kind *)
Inductive ordinary : gval -> ctype -> Prop :=
| O_bool b : ordinary (GBool b) TBool
| O_int z : ordinary (GInt z) TNum
| O_str s : ordinary (GStr s) TStr
| O_list l t : l <> [] -> (forall x, In x l -> ordinary x t) -> ordinary (GList l) (TList t).
(** documents: nested maps of ordinary values *)
Inductive document : gval -> Prop :=
| D_value v t : ordinary v t -> document v
| D_map m : (forall k v, In (k, v) m -> document v) -> document (GMap m).
(** reading attributes and blocks *)
Fixpoint back (c : cval) : gval :=
  match c with
  | CStr s => GStr s | CNum z => GInt z | CBool b => GBool b
  | CList l => GList (map back l)
  | CEmpty => GList []
  | CNull => GNil
  end.
Fixpoint read_item (i : item) : gostring * gval :=
  match i with
  | IAttr k c => (k, back c)
  | IBlock k b => (k, GMap (map read_item b))
  end.

Lemma ctype_eqb_refl t : ctype_eqb t t = true.
Proof. induction t; auto. Qed.
Lemma ctype_eqb_eq a : forall b, ctype_eqb a b = true -> a = b.
Proof. induction a; intros [ | | | | ]; cbn; intros H; try discriminate; auto. f_equal; auto. Qed.
Section Hcl.
Variable opaque : N -> option cval.
Definition cty_list (l : list gval) : res (list cval) :=
  (fix go (l : list gval) : res (list cval) :=
     match l with
     | [] => Ok []
     | x :: r => do o <- ctyValue opaque x; do vs <- go r; Ok (match o with Some c => c :: vs | None => vs end)
     end) l.
Lemma cty_glist x l : ctyValue opaque (GList (x :: l)) = do vs <- cty_list (x :: l); do c <- ListVal vs; Ok (Some c).
Proof. reflexivity. Qed.
Lemma cty_ordinary v : forall t, ordinary v t -> exists c, ctyValue opaque v = Ok (Some c) /\ ctype_of c = t /\ back c = v.
Proof.
  induction v as [v Hv|l IH|m IH|m IH|l IH|l IH|v x y z IH] using gval_ind'; intros t O; inversion O; subst; try destruct Hv;
    try (eexists; split; [reflexivity|split; reflexivity]).
  rename t0 into t. destruct l as [|x l]; [congruence|]. rewrite cty_glist.
  assert (G : exists cs, cty_list (x :: l) = Ok cs /\ Forall (fun c => ctype_of c = t) cs /\ map back cs = x :: l).
  { rename H1 into Ho. clear H0 O. revert Ho. induction IH as [|y r Hy _ IHr]; intros Ho.
    - exists []. repeat split; auto.
    - destruct (Hy t) as (c & E1 & E2 & E3); [apply Ho; now left|].
      destruct IHr as (cs & F1 & F2 & F3); [intros z Hz; apply Ho; now right|].
      exists (c :: cs). unfold cty_list in *. rewrite E1. cbn [bind]. rewrite F1. cbn [bind]. split; auto. split; [constructor; auto|].
      cbn [map]. now rewrite E3, F3. }
  destruct G as (cs & E & F & M). rewrite E. cbn [bind]. destruct cs as [|c cs]; [discriminate|].
  inversion F as [|? ? F1 F2]; subst. cbn [ListVal].
  assert (A : forallb (fun y => ctype_eqb (ctype_of c) (ctype_of y)) cs = true).
  { apply forallb_forall. intros y Hy. rewrite Forall_forall in F2. rewrite (F2 y Hy). apply ctype_eqb_refl. }
  rewrite A. cbn [bind]. exists (CList (c :: cs)). split; auto. split; auto. cbn [back]. now rewrite M.
Qed.
Definition fill_all (m : gmap) : res (list item) :=
  (fix go (m : list (gostring * gval)) : res (list item) :=
     match m with
     | [] => Ok []
     | (k, v) :: r => do i <- fill opaque k v; do is <- go r; Ok (i :: is)
     end) m.
Lemma fill_all_marshal m : fill_all m = hcl_Marshal opaque m.
Proof. unfold fill_all. induction m as [|[k v] m IH]; cbn [hcl_Marshal]; try rewrite <- IH; reflexivity. Qed.
Lemma fill_map k m : fill opaque k (GMap m) = do b <- hcl_Marshal opaque m; Ok (IBlock k b).
Proof. rewrite <- fill_all_marshal. reflexivity. Qed.
Lemma fill_attr k v : (forall m, v <> GMap m) -> fill opaque k v = do o <- ctyValue opaque v; Ok (IAttr k (match o with Some c => c | None => CNull end)).
Proof. intros H. destruct v; try reflexivity. exfalso. eapply H. reflexivity. Qed.
Lemma fill_ordinary k v t : ordinary v t -> exists i, fill opaque k v = Ok i /\ read_item i = (k, v).
Proof.
  intros O. destruct (cty_ordinary _ t O) as (c & E & _ & B). exists (IAttr k c).
  rewrite fill_attr by (intros m ->; inversion O). rewrite E. split; auto. cbn. now rewrite B.
Qed.
Lemma fill_document v : document v -> forall k, exists i, fill opaque k v = Ok i /\ read_item i = (k, v).
Proof.
  induction v as [v Hv|l IH|m IH|m IH|l IH|l IH|v x y z IH] using gval_ind'; intros D k;
    try (inversion D as [? t O|]; subst; [now apply fill_ordinary with t|destruct Hv]);
    try (inversion D as [? t O|]; subst; now apply fill_ordinary with t).
  - rewrite fill_map. assert (H : forall k' v', In (k', v') m -> document v').
    { inversion D as [? t O|]; subst; auto. inversion O. }
    assert (G : exists is, hcl_Marshal opaque m = Ok is /\ map read_item is = m).
    { clear D. induction IH as [|[k' v'] r Hr _ IHr]; [exists []; auto|]. cbn [snd] in Hr.
      destruct (Hr (H k' v' (or_introl eq_refl)) k') as (i & E & R).
      destruct IHr as (is & E2 & R2); [intros a b Hab; apply (H a b); now right|].
      exists (i :: is). cbn [hcl_Marshal map]. rewrite E. cbn [bind]. rewrite E2. cbn [bind]. split; auto. now rewrite R, R2. }
    destruct G as (is & E & R). rewrite E. cbn [bind]. exists (IBlock k is). split; auto. cbn [read_item]. now rewrite R.
Qed.
(** documents are written so that reading the attributes and blocks gives the document back *)
Theorem hcl_written m : (forall k v, In (k, v) m -> document v) ->
  exists is, hcl_Marshal opaque m = Ok is /\ map read_item is = m.
Proof.
  intros H. destruct (fill_document (GMap m) (D_map m H) []) as (i & E & R). rewrite fill_map in E.
  destruct (hcl_Marshal opaque m) as [is| |]; cbn [bind] in E; try discriminate. injection E as <-.
  exists is. split; auto. cbn [read_item] in R. congruence.
Qed.
(** whenever Marshal returns, every key is there, in the order of the iteration *)
Theorem hcl_keys m is : hcl_Marshal opaque m = Ok is -> map (fun i => fst (read_item i)) is = map fst m.
Proof.
  revert is. induction m as [|[k v] m IH]; intros is; cbn [hcl_Marshal]; [intros E; now injection E as <-|].
  destruct (fill opaque k v) as [i| |] eqn:F; cbn [bind]; try discriminate.
  destruct (hcl_Marshal opaque m) as [js| |]; cbn [bind]; try discriminate. intros E. injection E as <-.
  cbn [map fst]. rewrite (IH js eq_refl). f_equal.
  assert (C : (exists m', v = GMap m') \/ forall m', v <> GMap m') by (destruct v; eauto; right; discriminate).
  destruct C as [[m' ->]|C].
  - rewrite fill_map in F. destruct (hcl_Marshal _ _); cbn [bind] in F; try discriminate. injection F as <-. reflexivity.
  - rewrite fill_attr in F by auto. destruct (ctyValue _ _); cbn [bind] in F; try discriminate. injection F as <-. reflexivity.
Qed.
(** values without a form in hcl: nil, other maps, and what the codec does not know *)
Definition formless (v : gval) : Prop :=
  match v with GNil | GAMap _ | GPkg _ _ _ _ => True | GOther n => opaque n = None | _ => False end.
(** they are written as null, and no error is reported *)
Theorem hcl_null m is k v : hcl_Marshal opaque m = Ok is -> In (k, v) m -> formless v -> In (k, GNil) (map read_item is).
Proof.
  revert is. induction m as [|[k' v'] m IH]; intros is; cbn [hcl_Marshal]; [intros _ []|].
  destruct (fill opaque k' v') as [i| |] eqn:F; cbn [bind]; try discriminate.
  destruct (hcl_Marshal opaque m) as [js| |]; cbn [bind]; try discriminate. intros E Hin Fv. injection E as <-.
  cbn [map In]. destruct Hin as [X|Hin]; [|right; eauto]. left. injection X as -> ->.
  destruct v; cbn [formless] in Fv; try contradiction; cbn in F; try rewrite Fv in F; cbn in F; injection F as <-; reflexivity.
Qed.
(** lists of scalars: elements without a form are left out; Marshal panics if nothing is left or two kinds are *)
Definition scalar_or_nil (v : gval) : Prop := match v with GBool _ | GInt _ | GStr _ | GNil => True | _ => False end.
Definition not_nil (v : gval) : bool := negb (gval_is_nil v).
Lemma cty_list_scalars l : Forall scalar_or_nil l ->
  exists cs, cty_list l = Ok cs /\ map back cs = filter not_nil l /\ Forall (fun c => ordinary (back c) (ctype_of c)) cs.
Proof.
  induction 1 as [|x l Hx _ (cs & E & B & F)]; [exists []; auto|].
  unfold cty_list in *. destruct x; try destruct Hx; cbn [ctyValue bind]; rewrite E; cbn [bind filter not_nil gval_is_nil negb];
    [exists cs; auto|..]; eexists; (split; [reflexivity|]); cbn [map back]; (split; [now rewrite B|]); (constructor; [constructor|assumption]).
Qed.
Lemma ordinary_kind v t1 t2 : ordinary v t1 -> ordinary v t2 -> t1 = t2.
Proof.
  revert t1 t2. induction v as [v Hv|l IH|m IH|m IH|l IH|l IH|v x y z IH] using gval_ind'; intros t1 t2 O1 O2;
    inversion O1; subst; inversion O2; subst; try destruct Hv; auto.
  f_equal. destruct l as [|x l]; [congruence|]. inversion IH; subst. eauto using in_eq.
Qed.
Theorem hcl_list l : l <> [] -> Forall scalar_or_nil l ->
  (exists t x, In x l /\ x <> GNil /\ forall y, In y l -> y <> GNil -> ordinary y t) /\
    (exists c, ctyValue opaque (GList l) = Ok (Some c) /\ back c = GList (filter not_nil l)) \/
  (forall t x, In x l -> x <> GNil -> exists y, In y l /\ y <> GNil /\ ~ ordinary y t) /\ ctyValue opaque (GList l) = Panic.
Proof.
  intros Hl Hs. destruct (cty_list_scalars l Hs) as (cs & E & B & F). destruct l as [|x0 l0]; [congruence|].
  rewrite cty_glist, E. cbn [bind]. set (l := x0 :: l0) in *. clearbody l. clear x0 l0 Hl.
  assert (NN : forall y, In y (filter not_nil l) <-> In y l /\ y <> GNil).
  { intros y. rewrite filter_In. split; intros [A C]; split; auto.
    - intros ->. discriminate.
    - destruct y; solve [auto | congruence]. }
  destruct cs as [|c cs].
  - right. split; [|reflexivity]. intros t x Hx Nx. exfalso. cbn in B.
    assert (I : In x (filter not_nil l)) by (apply NN; auto). rewrite <- B in I. destruct I.
  - cbn [ListVal]. destruct (forallb _ cs) eqn:A.
    + left. assert (Fc : Forall (fun y => ordinary y (ctype_of c)) (filter not_nil l)).
      { rewrite <- B. apply Forall_forall. intros y Hy. apply in_map_iff in Hy. destruct Hy as (d & <- & Hd).
        rewrite Forall_forall in F. assert (T : ctype_of c = ctype_of d).
        { destruct Hd as [<-|Hd]; auto. rewrite forallb_forall in A. now apply ctype_eqb_eq, A. }
        rewrite T. now apply F. }
      rewrite Forall_forall in Fc. split.
      * exists (ctype_of c), (back c). assert (I : In (back c) (filter not_nil l)) by (rewrite <- B; now left).
        apply NN in I. destruct I. split; auto. split; auto. intros y Hy Ny. apply Fc. apply NN. auto.
      * exists (CList (c :: cs)). split; auto. cbn [back]. now rewrite B.
    + right. split; [|reflexivity]. intros t x Hx Nx.
      assert (K : exists d, In d cs /\ ctype_of c <> ctype_of d).
      { clear - A. induction cs as [|d cs IH]; [discriminate|]. cbn [forallb] in A. apply andb_false_iff in A. destruct A as [A|A].
        - exists d. split; [now left|]. intros X. rewrite X, ctype_eqb_refl in A. discriminate.
        - destruct (IH A) as (e & He & Ne). exists e. split; auto. now right. }
      destruct K as (d & Hd & Nd). rewrite Forall_forall in F.
      assert (I1 : In (back c) (filter not_nil l)) by (rewrite <- B; now left).
      assert (I2 : In (back d) (filter not_nil l)) by (rewrite <- B; right; now apply in_map).
      apply NN in I1, I2. destruct I1 as [I1 N1], I2 as [I2 N2].
      assert (Dc : {t = ctype_of c} + {t <> ctype_of c}) by (destruct (ctype_eqb t (ctype_of c)) eqn:X; [left; now apply ctype_eqb_eq|right; intros ->; rewrite ctype_eqb_refl in X; discriminate]).
      destruct Dc as [->|Dc].
      * exists (back d). split; auto. split; auto. intros O. apply Nd. eapply ordinary_kind; [exact O|]. apply F. now right.
      * exists (back c). split; auto. split; auto. intros O. apply Dc. eapply ordinary_kind; [exact O|]. apply F. now left.
Qed.
End Hcl.

(** ** hjson *)
(** the node at a path of keys *)
Fixpoint hget (n : hnode) (ks : list gostring) : option hnode :=
  match ks with
  | [] => Some n
  | k :: r => match hn_val n with
              | HObj l => match find (fun e : gostring * hnode => str_eqb (fst e) k) l with Some (_, c) => hget c r | None => None end
              | _ => None
              end
  end.
(** the entry at a path of keys in maps of packed values *)
Fixpoint pget (m : gmap) (ks : list gostring) : option gval :=
  match ks with
  | [] => None
  | k :: r => match mget m k with
              | Some v => match r with
                          | [] => Some v
                          | _ => match v with GPkg (GMap m') _ _ _ => pget m' r | _ => None end
                          end
              | None => None
              end
  end.
(** keys of objects are distinct, scalars are no maps, and there are no arrays unless they are kept as they are *)
Inductive regular (flat : bool) : hnode -> Prop :=
| R_leaf v x y z : match v with HObj _ => False | HArr _ => flat = false | HScalar w => forall m, w <> GMap m | _ => True end -> regular flat (HN v x y z)
| R_obj l x y z : NoDup (map fst l) -> (forall k c, In (k, c) l -> regular flat c) -> regular flat (HN (HObj l) x y z).
Definition hentry (flat : bool) (c : hnode) : gval :=
  GPkg (match hn_val c with
        | HObj _ => GMap (hdecode flat c)
        | HArr _ => if flat then GMap (hdecode flat c) else hraw c
        | _ => hraw c
        end) (hn_desc c) (hn_cmt c) GNil.
Lemma hdecode_obj flat l x y z : hdecode flat (HN (HObj l) x y z) = fold_left (fun m e => mset m (fst e) (hentry flat (snd e))) l [].
Proof. cbn [hdecode]. generalize (@nil (gostring * gval)). induction l as [|[k c] l IH]; intros m; cbn [fold_left fst snd]; try rewrite <- IH; reflexivity. Qed.
Lemma hdecode_arr flat l x y z : hdecode flat (HN (HArr l) x y z) = fold_left (fun m c => mset m [] (hentry flat c)) l [].
Proof. cbn [hdecode]. generalize (@nil (gostring * gval)). induction l as [|c l IH]; intros m; cbn [fold_left]; try rewrite <- IH; reflexivity. Qed.
Lemma fold_mset_get flat l : forall m k, NoDup (map fst l) ->
  mget (fold_left (fun m e => mset m (fst e) (hentry flat (snd e))) l m) k =
  match find (fun e : gostring * hnode => str_eqb (fst e) k) l with Some (_, c) => Some (hentry flat c) | None => mget m k end.
Proof.
  induction l as [|[k' c] l IH]; intros m k ND; cbn [fold_left find fst snd]; auto.
  cbn [map fst] in ND. inversion ND as [|? ? H1 H2]; subst. rewrite IH by auto. rewrite mget_mset.
  destruct (str_eqb k' k) eqn:E; auto. apply str_eqb_eq in E. subst k'.
  destruct (find (fun e : gostring * hnode => str_eqb (fst e) k) l) as [[k2 c2]|] eqn:Fd; auto. exfalso. apply find_some in Fd. destruct Fd as [I E]. cbn in E.
  apply str_eqb_eq in E. subst k2. apply H1. now apply (in_map fst) in I.
Qed.
(** the value a document node has, objects and arrays as maps and lists of the values below *)
Inductive denotes : hnode -> gval -> Prop :=
| Dn_null x y z : denotes (HN HNull x y z) GNil
| Dn_str s x y z : denotes (HN (HStr s) x y z) (GStr s)
| Dn_scalar v x y z : denotes (HN (HScalar v) x y z) v
| Dn_arr l vs x y z : Forall2 denotes l vs -> denotes (HN (HArr l) x y z) (GList vs)
| Dn_obj l m x y z : Forall2 (fun e f => fst e = fst f /\ denotes (snd e) (snd f)) l m -> denotes (HN (HObj l) x y z) (GMap m).
Lemma denotes_raw : forall n, denotes n (hraw n).
Proof.
  fix denotes_raw 1. intros n.
  destruct n as [v x y z]. destruct v as [|s|v|l|l]; cbn [hraw hn_val]; constructor.
  - induction l as [|[k c] l IH]; constructor; [split; [reflexivity|exact (denotes_raw c)]|exact IH].
  - induction l as [|c l IH]; constructor; [exact (denotes_raw c)|exact IH].
Qed.
(** what UnmarshalEx has at a path: a value and the comments of the node there, a map for an object, nothing
    where the document has nothing *)
Theorem hjson_decoded flat l x y z : regular flat (HN (HObj l) x y z) -> forall ks, ks <> [] ->
  match hget (HN (HObj l) x y z) ks with
  | Some (HN w before key after as c) =>
      exists v, pget (hjson_UnmarshalEx flat (HN (HObj l) x y z)) ks = Some (GPkg v before (key ++ after) GNil) /\
                match w with HObj _ => exists m, v = GMap m | _ => denotes c v end
  | None => pget (hjson_UnmarshalEx flat (HN (HObj l) x y z)) ks = None
  end.
Proof.
  intros R ks. unfold hjson_UnmarshalEx. revert l x y z R. induction ks as [|k ks IH]; intros l x y z R Hne; [congruence|].
  inversion R as [? ? ? ? F|? ? ? ? ND Hr]; subst; [destruct F|].
  cbn [hget hn_val pget]. rewrite hdecode_obj, fold_mset_get by auto.
  destruct (find (fun e : gostring * hnode => str_eqb (fst e) k) l) as [[k2 c]|] eqn:Fd; [|cbn; reflexivity].
  apply find_some in Fd. destruct Fd as [I _]. specialize (Hr _ _ I).
  destruct ks as [|k1 ks].
  - cbn [hget]. unfold hentry. destruct c as [v b e a]. cbn [hn_val]. eexists. split; [reflexivity|].
    inversion Hr as [? ? ? ? F|]; subst; [|eauto]. destruct v; try exact (denotes_raw _); [contradiction|]. rewrite F. exact (denotes_raw _).
  - destruct c as [v b e a]. inversion Hr as [? ? ? ? F|l' ? ? ? ND' Hr']; subst.
    + unfold hentry. cbn [hn_val hn_desc hn_cmt]. destruct v; cbn [hget hn_val]; try reflexivity; try contradiction.
      * cbn [hraw hn_val]. destruct v; try reflexivity. exfalso. eapply F. reflexivity.
      * rewrite F. reflexivity.
    + unfold hentry. cbn [hn_val]. specialize (IH l' b e a Hr ltac:(discriminate)). exact IH.
Qed.
(** an array that is flattened keeps its last element only, under the empty key *)
Lemma hjson_array_eq l c x y z : hjson_UnmarshalEx true (HN (HArr (l ++ [c])) x y z) = [([], hentry true c)].
Proof.
  unfold hjson_UnmarshalEx. rewrite hdecode_arr, fold_left_app. cbn [fold_left].
  assert (G : forall m, (m = [] \/ exists v, m = [([], v)]) -> let r := fold_left (fun m c => mset m [] (hentry true c)) l m in r = [] \/ exists v, r = [([], v)]).
  { induction l as [|d l IH]; intros m Hm; cbn [fold_left]; auto. apply IH. right. destruct Hm as [->|[v ->]]; cbn; eauto. }
  match goal with |- mset ?r _ _ = _ => assert (X : r = [] \/ exists v, r = [([], v)]) by exact (G [] (or_introl eq_refl)); destruct X as [X|[v X]]; rewrite X end; reflexivity.
Qed.
Theorem hjson_array l w before key after x y z : exists v,
  hjson_UnmarshalEx true (HN (HArr (l ++ [HN w before key after])) x y z) = [([], GPkg v before (key ++ after) GNil)] /\
  match w with HObj _ | HArr _ => exists m, v = GMap m | _ => denotes (HN w before key after) v end.
Proof.
  rewrite hjson_array_eq. unfold hentry. eexists. split; [reflexivity|]. destruct w; cbn [hn_val]; try exact (denotes_raw _); eauto.
Qed.
