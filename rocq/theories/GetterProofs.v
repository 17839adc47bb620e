(** Getters: sections decoded by To, slices, integers of fixed width, sizes, times. *)
From Coq Require Import String.
From Coq Require Import List NArith ZArith Bool Arith Lia.
From Verif Require Import GoStr Utf8 Node NodeWf Trie Spec Refine ApiRefine Reach Derived Derived2 Cvter CvterProofs SizeProofs Getters.
Import ListNotations.
Open Scope list_scope.

(** ** To: the second attempt never adds anything *)
Theorem to_getM rf order h t path o :
  To rf order h t path o =
  do r <- GetM rf order h t path o; Ok (option_map (fun m => splitCompactKeys (hdelim h) (order m)) r).
Proof.
  unfold To. destruct (GetM rf order h t path o) as [[m|]| |] eqn:E; cbn [bind option_map]; try reflexivity.
  unfold GetR. unfold GetM in E. destruct (is_root_path path).
  - destruct (foldM _ _ _); cbn [bind] in E; discriminate.
  - destruct (Locate rf h t path) as [[[[[n b] p] f] kv]| |]; cbn [bind] in E |- *; try discriminate.
    destruct (f || p); [|reflexivity].
    destruct n as [n|]; [|discriminate]. destruct (foldM _ _ _); cbn [bind] in E; discriminate.
Qed.

(** ** slices *)
Theorem getXs_exact D rf {A} (conv : gval -> list A) h t path defs :
  plain_reach D t -> D (hdelim h) ->
  let q := s_query (hdelim h) (entries t) (s_search (hdelim h) (is_up h) (entries t) (full h path)) in
  GetXs (S rf) conv h t path defs = Ok (answer conv defs q, snd q).
Proof.
  intros R Hd q. destruct (plain_reach_step D rf h t (OQuery path) R Hd) as (t' & E & _).
  cbn [t_step s_step view_of v_delim v_pfx v_up snd] in E. fold q in E. unfold GetXs.
  destruct (Query (S rf) h t path) as [r| |]; cbn [bind] in *; try discriminate.
  destruct q as [[v b] f]. cbn [snd answer] in *. inversion E; subst. auto.
Qed.

(** ** integers of fixed width *)
Open Scope Z_scope.
Definition fits_signed (bits x : Z) : Prop := - 2 ^ (bits - 1) <= x < 2 ^ (bits - 1).
Definition fits_unsigned (bits x : Z) : Prop := 0 <= x < 2 ^ bits.
Lemma pow_half bits : 0 < bits -> 2 ^ bits = 2 * 2 ^ (bits - 1) /\ 0 < 2 ^ (bits - 1).
Proof.
  intros H. split; [|apply Z.pow_pos_nonneg; lia].
  rewrite <- Z.pow_succ_r by lia. f_equal. lia.
Qed.
(** the result fits and differs from the number by a multiple of 2^bits: there is one such number *)
Lemma to_signed_spec bits x y : 0 < bits ->
  (to_signed bits x = y <-> fits_signed bits y /\ exists k, x = y + k * 2 ^ bits).
Proof.
  intros H. destruct (pow_half bits H) as [E P]. unfold to_signed, fits_signed.
  pose proof (Z.mod_pos_bound x (2 ^ bits) ltac:(lia)) as B. pose proof (Z.div_mod x (2 ^ bits) ltac:(lia)) as DM.
  set (r := x mod 2 ^ bits) in *. set (q := x / 2 ^ bits) in *.
  split.
  - intros <-. destruct (Z.ltb_spec r (2 ^ (bits - 1))).
    + split; [lia|]. exists q. lia.
    + split; [lia|]. exists (q + 1). lia.
  - intros [F [k Hk]]. assert (Hd : exists j, r - y = j * 2 ^ bits) by (exists (k - q); lia).
    destruct Hd as [j Hj]. destruct (Z.ltb_spec r (2 ^ (bits - 1))).
    + assert (j = 0) by nia. lia.
    + assert (j = 1) by nia. lia.
Qed.
Lemma to_unsigned_spec bits x y : 0 <= bits ->
  (to_unsigned bits x = y <-> fits_unsigned bits y /\ exists k, x = y + k * 2 ^ bits).
Proof.
  intros H. assert (P : 0 < 2 ^ bits) by (apply Z.pow_pos_nonneg; lia). unfold to_unsigned, fits_unsigned.
  split.
  - intros <-. split; [now apply Z.mod_pos_bound|]. exists (x / 2 ^ bits).
    pose proof (Z.div_mod x (2 ^ bits) ltac:(lia)). lia.
  - intros [F [k ->]]. rewrite Z_mod_plus_full. now apply Z.mod_small.
Qed.
(** the stored number is answered exactly if it fits, and no error is reported in either case *)
Theorem getInt_exact D rf bits cint h t path defs a :
  plain_reach D t -> D (hdelim h) -> t_get t (runes (full h path)) = Some a -> a_leaf a = true -> 0 < bits ->
  let x := cint (if a_has a then a_data a else GNil) in
  exists y, GetIntN (S rf) bits cint h t path defs = Ok (y, true) /\ MustIntN (S rf) bits cint h t path defs = Ok y /\
    fits_signed bits y /\ (exists k, x = y + k * 2 ^ bits) /\ (y = x <-> fits_signed bits x).
Proof.
  intros R Hd G L Hb x. exists (to_signed bits x).
  destruct (getX_present D rf (fun v => to_signed bits (cint v)) 0 h t path defs a R Hd G L) as [E1 E2].
  split; [exact E1|]. split; [exact E2|]. destruct (proj1 (to_signed_spec bits x _ Hb) eq_refl) as [F M].
  split; [exact F|]. split; [exact M|]. split.
  - intros E. now rewrite <- E.
  - intros Fx. apply to_signed_spec; auto. split; auto. exists 0. lia.
Qed.
Theorem getUint_exact D rf bits cuint h t path defs a :
  plain_reach D t -> D (hdelim h) -> t_get t (runes (full h path)) = Some a -> a_leaf a = true -> 0 <= bits ->
  let x := cuint (if a_has a then a_data a else GNil) in
  exists y, GetUintN (S rf) bits cuint h t path defs = Ok (y, true) /\ MustUintN (S rf) bits cuint h t path defs = Ok y /\
    fits_unsigned bits y /\ (exists k, x = y + k * 2 ^ bits) /\ (y = x <-> fits_unsigned bits x).
Proof.
  intros R Hd G L Hb x. exists (to_unsigned bits x).
  destruct (getX_present D rf (fun v => to_unsigned bits (cuint v)) 0 h t path defs a R Hd G L) as [E1 E2].
  split; [exact E1|]. split; [exact E2|]. destruct (proj1 (to_unsigned_spec bits x _ Hb) eq_refl) as [F M].
  split; [exact F|]. split; [exact M|]. split.
  - intros E. now rewrite <- E.
  - intros Fx. apply to_unsigned_spec; auto. split; auto. exists 0. lia.
Qed.
Close Scope Z_scope.

(** ** sizes by key *)
Open Scope N_scope.
Lemma drop_while_in p s c : In c (drop_while p s) -> In c s.
Proof. induction s as [|x s IH]; cbn; auto. destruct (p x); cbn; intuition. Qed.
Lemma TrimRight_in s cut c : In c (TrimRight s cut) -> In c s.
Proof. unfold TrimRight. rewrite <- in_rev. intros H. apply drop_while_in in H. now apply in_rev in H. Qed.
Lemma trim_left_in f l : forall s c, In c (trim_left f l s) -> In c s.
Proof.
  induction f as [|f IH]; cbn; auto. intros s c. unfold drop_one.
  destruct (filter (fun p => has_prefix p s) l) as [|p ?]; auto. intros H. apply IH in H.
  rewrite <- (firstn_skipn (List.length p) s). apply in_or_app. now right.
Qed.
Lemma TrimSpace_in s c : In c (TrimSpace s) -> In c s.
Proof.
  unfold TrimSpace. rewrite <- in_rev. intros H. apply trim_left_in in H. apply in_rev in H.
  now apply trim_left_in in H.
Qed.
Lemma ascii_in s : ascii s = true <-> forall c, In c s -> c < 128.
Proof.
  unfold ascii. rewrite forallb_forall. split; intros H c Hc; specialize (H c Hc).
  - now apply N.ltb_lt.
  - now apply N.ltb_lt in H || now apply N.ltb_lt.
Qed.
(** a text of ASCII characters is read without a panic *)
Theorem fromBytes_ascii PF unit cut1 cut2 sz :
  (forall s f, PF s = Some f -> s <> []) ->
  (forall c, In c sz -> c < 128) -> exists n, fromBytes PF unit cut1 cut2 sz = Ok n.
Proof.
  intros HP Ha. unfold fromBytes. set (s := TrimRight (TrimRight (TrimSpace sz) cut1) cut2).
  set (r := TrimSpace (TrimRight s suffixes)).
  assert (As : forall c, In c s -> c < 128).
  { intros c Hc. apply Ha. unfold s in Hc. now apply TrimRight_in, TrimRight_in, TrimSpace_in in Hc. }
  assert (L : r <> [] -> exists c, last_rune s = Ok c).
  { intros Hr. destruct (exists_last (l := s)) as (s' & c & E).
    - intros X. destruct r as [|c r'] eqn:Er; [congruence|]. assert (I : In c r) by (rewrite Er; now left).
      unfold r in I. apply TrimSpace_in, TrimRight_in in I. rewrite X in I. destruct I.
    - exists c. rewrite E. apply ascii_last_rune. rewrite <- E. now apply ascii_in. }
  destruct (mem 46 r).
  - destruct (PF r) as [f|] eqn:Ef; [|eauto]. destruct (L (HP _ _ Ef)) as [c Hc]. rewrite Hc. cbn [bind]. eauto.
  - destruct (ParseUint r) as [n ok] eqn:Eu. destruct ok; [|eauto].
    destruct L as [c Hc]; [|rewrite Hc; cbn [bind]; eauto]. intros X. rewrite X in Eu. discriminate.
Qed.

(** what a size getter answers: [from] is FromKibiBytes or FromKiloBytes *)
Theorem getBytes_exact D rf from str h t path defs :
  plain_reach D t -> D (hdelim h) ->
  let q := s_query (hdelim h) (entries t) (s_search (hdelim h) (is_up h) (entries t) (full h path)) in
  getBytes (S rf) from str h t path defs =
  (if snd q then
     match str (fst (fst q)) with
     | [] => Ok (last defs 0, true)
     | c :: s => do n <- from (c :: s); Ok (n, true)
     end
   else Ok (last defs 0, false)).
Proof.
  intros R Hd q. unfold getBytes. destruct (getX_exact D rf str [] h t path [[]] R Hd) as [E _].
  unfold gostring in *. rewrite E. fold q. destruct q as [[v b] f]. cbn [bind answer fst snd last]. destruct f.
  - destruct (str v); reflexivity.
  - reflexivity.
Qed.
Theorem getBytes_present D rf from str h t path defs a c s :
  plain_reach D t -> D (hdelim h) -> t_get t (runes (full h path)) = Some a -> a_leaf a = true ->
  str (if a_has a then a_data a else GNil) = c :: s ->
  getBytes (S rf) from str h t path defs = do n <- from (c :: s); Ok (n, true).
Proof.
  intros R Hd G L E. unfold getBytes. destruct (getX_present D rf str [] h t path [[]] a R Hd G L) as [E1 _].
  unfold gostring in *. rewrite E1, E. reflexivity.
Qed.
Theorem getBytes_absent D rf from str h t path defs :
  plain_reach D t -> D (hdelim h) -> hmode h <> ModeUp -> full h path <> [] ->
  t_get t (runes (full h path)) = None -> t_get t (runes (full h path) ++ [hdelim h]) = None ->
  getBytes (S rf) from str h t path defs = Ok (last defs 0, false).
Proof.
  intros R Hd M Hne G1 G2. unfold getBytes. destruct (getX_absent D rf str [] h t path [[]] R Hd M Hne G1 G2) as [E1 _].
  unfold gostring in *. rewrite E1. reflexivity.
Qed.
Theorem getKibi_present D rf PF str h t path defs a lead ds mid c k x y trail :
  plain_reach D t -> D (hdelim h) -> t_get t (runes (full h path)) = Some a -> a_leaf a = true ->
  str (if a_has a then a_data a else GNil) = lead ++ (ds ++ mid ++ [c] ++ x ++ y) ++ trail ->
  number ds -> power c = Some k ->
  Forall (fun c => blank c = true) (lead ++ mid ++ trail) ->
  Forall (fun b => mem b (s2b "ib"%string) = true) x -> Forall (fun b => mem b (s2b "iB"%string) = true) y ->
  GetKibiBytes (S rf) PF str h t path defs = Ok (outcome ds (1024 ^ k), true).
Proof.
  intros R Hd G L E HN HP HB HX HY.
  destruct (lead ++ (ds ++ mid ++ [c] ++ x ++ y) ++ trail) as [|c0 s0] eqn:ES.
  { apply (f_equal (@List.length _)) in ES. rewrite !app_length in ES. cbn in ES. lia. }
  unfold GetKibiBytes. rewrite (getBytes_present D rf _ str h t path defs a c0 s0 R Hd G L E). rewrite <- ES.
  rewrite (kibi_suffix PF lead ds mid c k x y trail); auto.
Qed.
Theorem getKilo_present D rf PF str h t path defs a lead ds mid c k x y trail :
  plain_reach D t -> D (hdelim h) -> t_get t (runes (full h path)) = Some a -> a_leaf a = true ->
  str (if a_has a then a_data a else GNil) = lead ++ (ds ++ mid ++ [c] ++ x ++ y) ++ trail ->
  number ds -> power c = Some k ->
  Forall (fun c => blank c = true) (lead ++ mid ++ trail) ->
  Forall (fun b => mem b (s2b "b"%string) = true) x -> Forall (fun b => mem b (s2b "B"%string) = true) y ->
  GetKiloBytes (S rf) PF str h t path defs = Ok (outcome ds (1000 ^ k), true).
Proof.
  intros R Hd G L E HN HP HB HX HY.
  destruct (lead ++ (ds ++ mid ++ [c] ++ x ++ y) ++ trail) as [|c0 s0] eqn:ES.
  { apply (f_equal (@List.length _)) in ES. rewrite !app_length in ES. cbn in ES. lia. }
  unfold GetKiloBytes. rewrite (getBytes_present D rf _ str h t path defs a c0 s0 R Hd G L E). rewrite <- ES.
  rewrite (kilo_suffix PF lead ds mid c k x y trail); auto.
Qed.
Close Scope N_scope.

(** ** times *)
Section Times.
Context {time err : Type} (zero : time) (parse : gostring -> gostring -> time + err).
Definition fails (l s : gostring) : Prop := exists e, parse l s = inr e.
Lemma try_layouts_spec ls s : forall last,
  (exists ls1 l ls2 t, ls = ls1 ++ l :: ls2 /\ Forall (fun x => fails x s) ls1 /\ parse l s = inl t /\
     try_layouts time err zero parse ls s last = (t, None)) \/
  (Forall (fun x => fails x s) ls /\
   try_layouts time err zero parse ls s last =
   match rev ls with [] => last | l :: _ => (zero, match parse l s with inr e => Some e | inl _ => None end) end).
Proof.
  induction ls as [|l ls IH]; intros last0; cbn [try_layouts]; [right; split; [constructor|reflexivity]|].
  destruct (parse l s) as [t|e] eqn:E.
  - left. exists [], l, ls, t. repeat split; auto.
  - destruct (IH (zero, Some e)) as [(ls1 & l' & ls2 & t & -> & F & P & Q)|[F Q]].
    + left. exists (l :: ls1), l', ls2, t. repeat split; auto. constructor; auto. now exists e.
    + right. split; [constructor; auto; now exists e|]. rewrite Q. cbn [rev].
      destruct (rev ls) as [|x r]; cbn [app]; [now rewrite E|reflexivity].
Qed.
(** the first layout that fits decides; if none fits, the error of the last one is returned *)
Theorem parse_time_first known s :
  (exists ls1 l ls2 t, known = ls1 ++ l :: ls2 /\ Forall (fun x => fails x s) ls1 /\ parse l s = inl t /\
     SmartParseTime time err zero parse known s = (t, None)) \/
  (Forall (fun x => fails x s) known /\
   forall ls l, known = ls ++ [l] -> exists e, parse l s = inr e /\ SmartParseTime time err zero parse known s = (zero, Some e)).
Proof.
  destruct (try_layouts_spec known s (zero, None)) as [H|[F Q]]; [left; exact H|right]. split; auto.
  intros ls l ->. unfold SmartParseTime. rewrite Q, rev_app_distr. cbn [rev app].
  apply Forall_app in F. destruct F as [_ F]. inversion F as [|? ? [e He] ?]; subst. exists e. now rewrite He.
Qed.
(** added layouts count only where every known one fails *)
Theorem parse_time_added known formats s :
  (forall t, SmartParseTime time err zero parse known s = (t, None) -> known <> [] ->
     SmartParseTime time err zero parse (AddKnownTimeFormats known formats) s = (t, None)) /\
  (Forall (fun x => fails x s) known -> formats <> [] ->
     SmartParseTime time err zero parse (AddKnownTimeFormats known formats) s = SmartParseTime time err zero parse formats s).
Proof.
  unfold SmartParseTime, AddKnownTimeFormats. split.
  - generalize (zero, @None err). intros o t. revert o.
    induction known as [|l ls IH]; intros o H N; [congruence|]. cbn [try_layouts app] in *.
    destruct (parse l s); auto. destruct ls as [|l' ls]; [cbn in H; discriminate|]. apply IH; [exact H|discriminate].
  - intros F N. generalize (zero, @None err) at 2. generalize (zero, @None err).
    induction F as [|l ls [e He] F IH]; intros l1 l2; cbn [app].
    + destruct formats as [|f fs]; [congruence|]. cbn [try_layouts]. destruct (parse f s); reflexivity.
    + cbn [try_layouts]. rewrite He. apply IH.
Qed.
End Times.
