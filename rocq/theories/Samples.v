(** Concrete stores used to show that the hypotheses of the theorems can be met. *)
From Coq Require Import List NArith ZArith Bool Arith String.
From Verif Require Import GoStr Utf8 Node Trie Spec Refine ApiRefine Reach Derived Derived2 Derived3.
Import ListNotations.
Open Scope nat_scope.
Open Scope list_scope.

(** only the default delimiter '.' is in use *)
Definition dotD : rune -> Prop := fun c => c = 46%N.
Definition hd0 : hdl := defaultHdl.
(** a view with the prefix "app" *)
Definition hApp : hdl := withPrefix defaultHdl [("app"%string : gostring)].

Definition hist1 : list (hdl * op) :=
  [(hd0, OSet "app.logging.file"%string (GStr "x.log"%string));
   (hApp, OSet "level"%string (GInt 2));
   (hd0, OSetNode "app.name"%string (GInt 3) (GInt 9) [("the name"%string : gostring); ("a comment"%string : gostring)]);
   (hd0, OSet "app"%string (GInt 4));
   (hApp, OSetTag "name"%string (GInt 5));
   (hd0, OSet "path.to"%string (GInt 6));
   (hd0, OHas "app.na"%string)].
Definition t1 : tr := Eval vm_compute in
  match t_run 1 hist1 newTrie with Ok (t, _) => t | _ => newTrie end.
Definition outs1 : list out := Eval vm_compute in
  match t_run 1 hist1 newTrie with Ok (_, o) => o | _ => [] end.

Ltac run := vm_compute; reflexivity.
Ltac dots := let d := fresh in let H := fresh in intros d H; unfold dotD in H; subst d; vm_compute; reflexivity || exact I.
Ltac plains := repeat (apply Forall_cons; [split; [reflexivity|dots]|]); try apply Forall_nil.
Ltac notin := let X := fresh in vm_compute; intros X; repeat (destruct X as [X|X]; [discriminate X|]); destruct X.

Lemma hist1_plain : plain_hist dotD hist1.
Proof. plains. Qed.
Lemma hist1_no_remove : no_remove hist1.
Proof. repeat constructor. Qed.
Lemma hist1_ascii : ascii_hist hist1.
Proof. repeat constructor. Qed.
Lemma hist1_run : t_run 1 hist1 newTrie = Ok (t1, outs1).
Proof. vm_compute. reflexivity. Qed.
Lemma t1_plain : plain_reach dotD t1.
Proof. exact (plain_reach_hist dotD 0 hist1 t1 outs1 hist1_plain hist1_run). Qed.
Lemma t1_reached : reached t1.
Proof. exact (plain_reach_reached dotD t1 t1_plain). Qed.
