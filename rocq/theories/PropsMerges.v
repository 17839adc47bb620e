(** The properties of several Merges one after the other (C226 - C228): only statements.

    [merges str s l t]: the store [s] merges every path and map of [l].  [puts str s (p, m)]: the tree keys of the scalars of
    [m] below [p] with their values.  [data_at t k]: the data at the key [k], if there is any; [mod_at t k]: the mark of the
    key.  [alike t t']: the same data and marks at every key. *)
From Coq Require Import String.
From Coq Require Import List NArith ZArith Bool Arith Lia.
From Verif Require Import GoStr Utf8 Node Trie Spec Refine ApiRefine Reach Derived Derived2 Cvter Nested Store StoreProofs MergeProofs LoadProofs Follow Samples Layers Merges.
Import ListNotations.
Open Scope nat_scope.
Open Scope list_scope.

Ltac run := vm_compute; reflexivity.
Definition mb (s : string) : gostring := s2b s.
Definition m_s : store := Sto defaultHdl false [] [] [] [] None false false.
Definition m_str : gval -> gostring := fun _ => [].
Definition m_base : gostring * gmap := (mb "app", [(mb "port", GInt 80); (mb "log", GMap [(mb "level", GInt 2)])]).
Definition m_over : gostring * gmap := (mb "app", [(mb "port", GInt 8080)]).
Definition m_else : gostring * gmap := (mb "db", [(mb "port", GInt 5432)]).

(** C226: the last map that has a key gives its data, every other key keeps what it had, the keys of the maps are marked;
    and the same Merges once more change nothing *)
Theorem C226_last str s l t : reached t ->
  exists t', merges str s l t = Ok t' /\ reached t' /\
    (forall k, data_at t' k = match assoc_last (flat_map (puts str s) l) k None with Some v => Some v | None => data_at t k end) /\
    (forall k, mod_at t' k = (mod_at t k || negb (so_loading s) && existsb (fun e => str_eqb (fst e) k) (flat_map (puts str s) l))).
Proof. exact (@merges_spec str s l t). Qed.
Print Assumptions C226_last.
Theorem C226_again str s l t t1 : reached t -> merges str s l t = Ok t1 -> exists t2, merges str s l t1 = Ok t2 /\ alike t1 t2.
Proof. exact (@merges_again str s l t t1). Qed.
Print Assumptions C226_again.
Example C226_case : exists t', merges m_str m_s [m_base; m_over] t1 = Ok t' /\
  flat_map (puts m_str m_s) [m_base; m_over] =
    [(mb "app.port", GInt 80); (mb "app.log.level", GInt 2); (mb "app.port", GInt 8080)] /\
  data_at t' (mb "app.port") = Some (GInt 8080) /\ data_at t' (mb "app.log.level") = Some (GInt 2) /\ mod_at t' (mb "app.port") = true.
Proof. eexists. split; [run|]. repeat split; run. Qed.

(** C227: Merges without a common key can change places *)
Theorem C227_swap str s a b t : reached t ->
  (forall k, ~ (In k (map fst (flat_map (puts str s) a)) /\ In k (map fst (flat_map (puts str s) b)))) ->
  exists t1 t2, merges str s (a ++ b) t = Ok t1 /\ merges str s (b ++ a) t = Ok t2 /\ alike t1 t2.
Proof. exact (@merges_swap str s a b t). Qed.
Print Assumptions C227_swap.
(** with a common key they cannot *)
Example C227_order : exists x y, merges m_str m_s [m_base; m_over] t1 = Ok x /\ merges m_str m_s [m_over; m_base] t1 = Ok y /\
  data_at x (mb "app.port") = Some (GInt 8080) /\ data_at y (mb "app.port") = Some (GInt 80).
Proof. do 2 eexists. split; [run|]. split; [run|]. split; run. Qed.
Example C227_case : (forall k, ~ (In k (map fst (flat_map (puts m_str m_s) [m_base])) /\ In k (map fst (flat_map (puts m_str m_s) [m_else])))) /\
  exists x, merges m_str m_s [m_base; m_else] t1 = Ok x /\ data_at x (mb "app.port") = Some (GInt 80) /\ data_at x (mb "db.port") = Some (GInt 5432).
Proof.
  split; [|eexists; split; [run|]; split; run]. intros k [A B]. vm_compute in A, B.
  destruct B as [<-|[]]. destruct A as [A|[A|[]]]; discriminate A.
Qed.

(** C228: Merges whose keys are all in the later ones leave no trace *)
Theorem C228_covered str s a b t : reached t ->
  (forall k, In k (map fst (flat_map (puts str s) a)) -> In k (map fst (flat_map (puts str s) b))) ->
  exists t1 t2, merges str s (a ++ b) t = Ok t1 /\ merges str s b t = Ok t2 /\ alike t1 t2.
Proof. exact (@merges_covered str s a b t). Qed.
Print Assumptions C228_covered.
(** but if only the path is the same, the keys of the earlier one are still there: Merge does not replace a section *)
Example C228_section : exists x, merges m_str m_s [m_base; m_over] t1 = Ok x /\ data_at x (mb "app.log.level") = Some (GInt 2).
Proof. eexists. split; run. Qed.
Example C228_case : forall k, In k (map fst (flat_map (puts m_str m_s) [m_over])) -> In k (map fst (flat_map (puts m_str m_s) [m_base])).
Proof. intros k H. vm_compute in H |- *. tauto. Qed.
