(** The properties of integer getters, sizes by key and times (C102-C106): only statements.

    [plain_reach D t]: the store is reached by calls with delimiters in [D] that store no route patterns.
    [fits_signed bits x]: -2^(bits-1) <= x < 2^(bits-1).  [cint], [cuint], [str]: the conversions of evendeep.
    [fails parse l s]: the layout [l] does not fit the text [s]. *)
From Coq Require Import String.
From Coq Require Import List NArith ZArith Bool Arith Lia.
From Verif Require Import GoStr Utf8 Node Trie Spec Refine ApiRefine Reach Derived Derived2 Derived3 Dur Cvter CvterProofs SizeProofs
  Getters GetterProofs.
Import ListNotations.
Open Scope nat_scope.
Open Scope list_scope.

Ltac run := vm_compute; reflexivity.
Definition b (s : string) : gostring := s2b s.
Definition dotD : rune -> Prop := fun c => c = 46%N.
Definition h0 : hdl := defaultHdl.
Definition hist : list (hdl * op) :=
  [(h0, OSet (b "app.port") (GInt 300)); (h0, OSet (b "app.level") (GInt (-3))); (h0, OSet (b "size") (GStr (b "12 KiB")));
   (h0, OSet (b "sizes") (GStr (b "many"))); (h0, OSet (b "none") (GStr []));
   (h0, OSet (b "size2") (GStr (b " 7MB")))].
Definition t0 : tr := Eval vm_compute in match t_run 1 hist newTrie with Ok (t, _) => t | _ => newTrie end.
Definition outs0 : list out := Eval vm_compute in match t_run 1 hist newTrie with Ok (_, o) => o | _ => [] end.
Ltac dots := let d := fresh in let H := fresh in intros d H; unfold dotD in H; subst d; vm_compute; reflexivity || exact I.
Ltac plains := repeat (apply Forall_cons; [split; [reflexivity|dots]|]); try apply Forall_nil.
Lemma hist_plain : plain_hist dotD hist.
Proof. plains. Qed.
Lemma t0_plain : plain_reach dotD t0.
Proof. refine (plain_reach_hist dotD 0 hist t0 outs0 hist_plain _). run. Qed.
(** conversions that take integers and strings as they are *)
Definition int_of : gval -> Z := fun v => match v with GInt z => z | _ => 0%Z end.
Definition str_of : gval -> gostring := fun v => match v with GStr s => s | _ => [] end.

(** ** C102: GetInt8, GetUint16, ...: is the stored number answered, or an error? *)
Theorem C102_refuted : exists t, plain_reach dotD t /\
  GetIntN 1 8 int_of h0 t (b "app.port") [] = Ok (44%Z, true) /\
  GetUintN 1 8 int_of h0 t (b "app.port") [] = Ok (44%Z, true) /\
  GetIntN 1 16 int_of h0 t (b "app.port") [] = Ok (300%Z, true).
Proof. exists t0. split; [exact t0_plain|]. split; [run|]. split; run. Qed.
Print Assumptions C102_refuted.

(** ** C103: what they answer: the number if it fits, otherwise the one that fits and differs by a multiple of
    2^bits; never an error *)
Open Scope Z_scope.
Theorem C103_signed D rf bits cint h t path defs a :
  plain_reach D t -> D (hdelim h) -> t_get t (runes (full h path)) = Some a -> a_leaf a = true -> 0 < bits ->
  let x := cint (if a_has a then a_data a else GNil) in
  exists y, GetIntN (S rf) bits cint h t path defs = Ok (y, true) /\ MustIntN (S rf) bits cint h t path defs = Ok y /\
    fits_signed bits y /\ (exists k, x = y + k * 2 ^ bits) /\ (y = x <-> fits_signed bits x).
Proof. exact (@getInt_exact D rf bits cint h t path defs a). Qed.
Print Assumptions C103_signed.
Theorem C103_unsigned D rf bits cuint h t path defs a :
  plain_reach D t -> D (hdelim h) -> t_get t (runes (full h path)) = Some a -> a_leaf a = true -> 0 <= bits ->
  let x := cuint (if a_has a then a_data a else GNil) in
  exists y, GetUintN (S rf) bits cuint h t path defs = Ok (y, true) /\ MustUintN (S rf) bits cuint h t path defs = Ok y /\
    fits_unsigned bits y /\ (exists k, x = y + k * 2 ^ bits) /\ (y = x <-> fits_unsigned bits x).
Proof. exact (@getUint_exact D rf bits cuint h t path defs a). Qed.
Print Assumptions C103_unsigned.
Close Scope Z_scope.
Example C103_case : plain_reach dotD t0 /\ dotD (hdelim h0) /\
  (exists a, t_get t0 (runes (full h0 (b "app.level"))) = Some a /\ a_leaf a = true) /\
  GetIntN 1 8 int_of h0 t0 (b "app.level") [] = Ok ((-3)%Z, true) /\ fits_signed 8 (-3).
Proof.
  split; [exact t0_plain|]. split; [reflexivity|]. split; [eexists; split; run|]. split; [run|].
  unfold fits_signed. cbn. lia.
Qed.

(** ** C104: GetKibiBytes and GetKiloBytes: is the default answered, or an error, if there is no size? *)
(** a text that is no size gives 0 without an error, whatever the default *)
Theorem C104_refuted : exists t, plain_reach dotD t /\
  forall PF d, GetKibiBytes 1 PF str_of h0 t (b "sizes") [d] = Ok (0%N, true).
Proof. exists t0. split; [exact t0_plain|]. intros PF d. run. Qed.
Print Assumptions C104_refuted.

(** ** C105: what they answer *)
Open Scope N_scope.
Theorem C105_exact D rf from str h t path defs :
  plain_reach D t -> D (hdelim h) ->
  let q := s_query (hdelim h) (entries t) (s_search (hdelim h) (is_up h) (entries t) (full h path)) in
  getBytes (S rf) from str h t path defs =
  (if snd q then
     match str (fst (fst q)) with
     | [] => Ok (last defs 0, true)
     | c :: s => do n <- from (c :: s); Ok (n, true)
     end
   else Ok (last defs 0, false)).
Proof. exact (@getBytes_exact D rf from str h t path defs). Qed.
Print Assumptions C105_exact.
Theorem C105_present D rf from str h t path defs a c s :
  plain_reach D t -> D (hdelim h) -> t_get t (runes (full h path)) = Some a -> a_leaf a = true ->
  str (if a_has a then a_data a else GNil) = c :: s ->
  getBytes (S rf) from str h t path defs = do n <- from (c :: s); Ok (n, true).
Proof. exact (@getBytes_present D rf from str h t path defs a c s). Qed.
Print Assumptions C105_present.
Theorem C105_absent D rf from str h t path defs :
  plain_reach D t -> D (hdelim h) -> hmode h <> ModeUp -> full h path <> [] ->
  t_get t (runes (full h path)) = None -> t_get t (runes (full h path) ++ [hdelim h]) = None ->
  getBytes (S rf) from str h t path defs = Ok (last defs 0, false).
Proof. exact (@getBytes_absent D rf from str h t path defs). Qed.
Print Assumptions C105_absent.
(** a stored text that is a size: the number times the power of 1024, and of 1000 *)
Theorem C105_kibi D rf PF str h t path defs a lead ds mid c k x y trail :
  plain_reach D t -> D (hdelim h) -> t_get t (runes (full h path)) = Some a -> a_leaf a = true ->
  str (if a_has a then a_data a else GNil) = lead ++ (ds ++ mid ++ [c] ++ x ++ y) ++ trail ->
  number ds -> power c = Some k ->
  Forall (fun c => blank c = true) (lead ++ mid ++ trail) ->
  Forall (fun b => mem b (s2b "ib"%string) = true) x -> Forall (fun b => mem b (s2b "iB"%string) = true) y ->
  GetKibiBytes (S rf) PF str h t path defs = Ok (outcome ds (1024 ^ k), true).
Proof. exact (@getKibi_present D rf PF str h t path defs a lead ds mid c k x y trail). Qed.
Print Assumptions C105_kibi.
Theorem C105_kilo D rf PF str h t path defs a lead ds mid c k x y trail :
  plain_reach D t -> D (hdelim h) -> t_get t (runes (full h path)) = Some a -> a_leaf a = true ->
  str (if a_has a then a_data a else GNil) = lead ++ (ds ++ mid ++ [c] ++ x ++ y) ++ trail ->
  number ds -> power c = Some k ->
  Forall (fun c => blank c = true) (lead ++ mid ++ trail) ->
  Forall (fun b => mem b (s2b "b"%string) = true) x -> Forall (fun b => mem b (s2b "B"%string) = true) y ->
  GetKiloBytes (S rf) PF str h t path defs = Ok (outcome ds (1000 ^ k), true).
Proof. exact (@getKilo_present D rf PF str h t path defs a lead ds mid c k x y trail). Qed.
Print Assumptions C105_kilo.
Close Scope N_scope.
Example C105_case PF : plain_reach dotD t0 /\ GetKibiBytes 1 PF str_of h0 t0 (b "size") [5%N] = Ok (12288%N, true) /\
  GetKibiBytes 1 PF str_of h0 t0 (b "none") [5%N; 6%N] = Ok (6%N, true) /\
  GetKibiBytes 1 PF str_of h0 t0 (b "other") [5%N; 6%N] = Ok (6%N, false) /\
  GetKiloBytes 1 PF str_of h0 t0 (b "size2") [5%N] = Ok (7000000%N, true) /\
  number (b "7") /\ power 77%N = Some 2%N /\
  (exists a, t_get t0 (runes (full h0 (b "size2"))) = Some a /\ a_leaf a = true /\
     str_of (if a_has a then a_data a else GNil) = b " " ++ (b "7" ++ [] ++ [77%N] ++ [] ++ b "B") ++ []) /\
  t_get t0 (runes (full h0 (b "other"))) = None /\ t_get t0 (runes (full h0 (b "other")) ++ [hdelim h0]) = None.
Proof.
  split; [exact t0_plain|]. split; [run|]. split; [run|]. split; [run|]. split; [run|].
  split; [split; [discriminate|]; split; [repeat constructor|vm_compute; discriminate]|]. split; [run|]. split; [eexists; split; [run|split; run]|]. split; run.
Qed.

(** ** C106: SmartParseTime *)
Theorem C106_first {time err} (zero : time) (parse : gostring -> gostring -> time + err) known s :
  (exists ls1 l ls2 t, known = ls1 ++ l :: ls2 /\ Forall (fun x => fails parse x s) ls1 /\ parse l s = inl t /\
     SmartParseTime time err zero parse known s = (t, None)) \/
  (Forall (fun x => fails parse x s) known /\
   forall ls l, known = ls ++ [l] -> exists e, parse l s = inr e /\ SmartParseTime time err zero parse known s = (zero, Some e)).
Proof. exact (parse_time_first zero parse known s). Qed.
Print Assumptions C106_first.
(** an added layout counts only for texts that fit none of the known ones *)
Theorem C106_added {time err} (zero : time) (parse : gostring -> gostring -> time + err) known formats s :
  (forall t, SmartParseTime time err zero parse known s = (t, None) -> known <> [] ->
     SmartParseTime time err zero parse (AddKnownTimeFormats known formats) s = (t, None)) /\
  (Forall (fun x => fails parse x s) known -> formats <> [] ->
     SmartParseTime time err zero parse (AddKnownTimeFormats known formats) s = SmartParseTime time err zero parse formats s).
Proof. exact (parse_time_added zero parse known formats s). Qed.
Print Assumptions C106_added.
(** a parser that takes texts of the layout's length *)
Definition parse0 (l s : gostring) : nat + unit := if List.length l =? List.length s then inl (List.length l) else inr tt.
Example C106_case : SmartParseTime nat unit 0 parse0 [b "2006-01-02"; b "01/02/2006"; b "15:04"] (b "03/04/2024") = (10, None) /\
  SmartParseTime nat unit 0 parse0 (AddKnownTimeFormats [b "2006-01-02"; b "15:04"] [b "02.01"; b "01"]) (b "07") = (2, None) /\
  Forall (fun x => fails parse0 x (b "07")) [b "2006-01-02"; b "15:04"].
Proof. split; [run|]. split; [run|]. repeat constructor; exists tt; run. Qed.
