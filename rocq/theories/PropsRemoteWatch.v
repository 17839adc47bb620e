(** Statements of the properties C184 and C185. *)
From Coq Require Import List Bool Arith Lia.
From Verif Require Import RemoteWatch RemoteWatchProofs.
Import ListNotations.

(** ** C184: Watch and Close of the etcd provider *)
Theorem C184_calls (A : Type) i es (s : est A) :
  e_of _ i (erun _ es s) ++ concat (chan_of i (erun _ es s)) = (e_of _ i s ++ concat (chan_of i s)) ++ concat (heard i s es).
Proof. exact (etcd_calls i es s). Qed.
Print Assumptions C184_calls.
Theorem C184_delivered (A : Type) i q (s : est A) d n : nth_error (e_gors _ s) i = Some (EGor _ InSelect q d n) ->
  e_of _ i (erun _ (repeat (ETake _ i) (length q)) s) = e_of _ i s ++ concat q.
Proof. intros E. exact (proj1 (etcd_drain i q s d n E)). Qed.
Print Assumptions C184_delivered.
Theorem C184_closed (A : Type) i es (s : est A) : e_client _ s = false -> exists rest, e_of _ i (erun _ es s) ++ rest = e_of _ i s ++ concat (chan_of i s).
Proof. exact (etcd_closed i es s). Qed.
Print Assumptions C184_closed.
Theorem C184_spins (A : Type) i es (s : est A) n : e_client _ s = false -> nth_error (e_gors _ s) i = Some (EGor _ InSelect [] false n) ->
  forallb (fun e => negb (cancels i e)) es = true ->
  nth_error (e_gors _ (erun _ es s)) i = Some (EGor _ InSelect [] false (n + length (filter (fun e => match e with ETake _ j => j =? i | _ => false end) es))).
Proof. exact (etcd_spins i es s n). Qed.
Print Assumptions C184_spins.
Theorem C184_refuted :
  (* a change after Watch returned, before its goroutine asked for the channel, is never reported *)
  (exists l : list nat, l <> [] /\ forall es, e_of _ 0 (erun _ ([EWatch _; EChange _ l; EAsk _ 0] ++ es) (e0 _)) ++
       concat (chan_of 0 (erun _ ([EWatch _; EChange _ l; EAsk _ 0] ++ es) (e0 _))) = concat (heard 0 (erun _ [EWatch _; EChange _ l; EAsk _ 0] (e0 _)) es)) /\
  (* after Close a callback is called for what was in the channel, and the goroutine goes round and round without end *)
  (exists es s, s = erun nat (es ++ [EClose _]) (e0 _) /\ e_calls _ s = [] /\ e_calls _ (erun _ [ETake _ 0] s) = [(0, 7)] /\
     forall n, nth_error (e_gors _ (erun _ (ETake _ 0 :: repeat (ETake _ 0) n) s)) 0 = Some (EGor _ InSelect [] false n)).
Proof.
  split.
  - exists [5]. split; [discriminate|]. intros es. pose proof (etcd_calls 0 es (erun nat [EWatch _; EChange _ [5]; EAsk _ 0] (e0 _))) as E. unfold pending in E.
    unfold erun in *. rewrite fold_left_app. exact E.
  - exists [EWatch _; EAsk _ 0; EChange _ [7]]. eexists. split; [reflexivity|]. split; [vm_compute; reflexivity|]. split; [vm_compute; reflexivity|]. intros n.
    match goal with |- context [erun _ (_ :: _) ?S] => assert (X := etcd_spins 0 (repeat (ETake nat 0) n) (estep _ S (ETake _ 0)) 0) end.
    assert (F : forall n, length (filter (fun e => match e with ETake _ j => j =? 0 | _ => false end) (repeat (ETake nat 0) n)) = n).
    { clear. induction n as [|n IH]; cbn; auto. }
    rewrite F in X. apply X; [vm_compute; reflexivity|vm_compute; reflexivity|]. clear. induction n as [|n IH]; cbn; auto.
Qed.
Print Assumptions C184_refuted.

Definition etcd_busy : list (eev nat) := [EWatch _; EAsk _ 0; EChange _ [1; 2]; EWatch _; EAsk _ 1; EChange _ [3]; ETake _ 0; ETake _ 1; ECancel _ 0; EQuit _ 0; EChange _ [4]].
Example C184_calls_case : let s := erun _ etcd_busy (e0 _) in e_of _ 0 s = [1; 2] /\ chan_of 0 s = [[3]] /\ e_of _ 1 s = [3] /\ chan_of 1 s = [[4]] /\
  heard 1 (e0 _) etcd_busy = [[3]; [4]].
Proof. vm_compute. repeat split. Qed.
Example C184_delivered_case : exists d n, nth_error (e_gors _ (erun _ etcd_busy (e0 _))) 1 = Some (EGor _ InSelect [[4]] d n).
Proof. vm_compute. eauto. Qed.
Example C184_closed_case : e_client _ (erun _ (etcd_busy ++ [EClose _]) (e0 _)) = false /\ concat (chan_of 1 (erun _ (etcd_busy ++ [EClose _]) (e0 _))) = [4].
Proof. vm_compute. split; reflexivity. Qed.
Example C184_spins_case : let s := erun _ (etcd_busy ++ [EClose _; ETake _ 1]) (e0 _) in e_client _ s = false /\ nth_error (e_gors _ s) 1 = Some (EGor _ InSelect [] false 0).
Proof. vm_compute. split; reflexivity. Qed.

(** ** C185: Watch and Close of the consul provider *)
Theorem C185_own (A : Type) xs i (a : A) : prompt (c0 A) xs = true -> let c := crun_ _ xs (c0 A) in
  (forall j, nth_error (c_gors _ c) i = Some (Runs j) -> j = i) /\
  (nth_error (c_gors _ c) i = Some (Runs i) -> nth i (c_plans _ c) true = false -> c_log _ (cstep _ c (CChange _ i a)) = c_log _ c ++ [(i, a)]).
Proof. exact (consul_own xs i a). Qed.
Print Assumptions C185_own.
Theorem C185_closed (A : Type) xs (c : cst A) j : c_plan _ c = Some j -> j < length (c_plans _ c) -> c_of _ j (crun_ _ xs (cstep _ c (CClose _))) = c_of _ j c.
Proof. exact (consul_closed xs c j). Qed.
Print Assumptions C185_closed.
Theorem C185_lost (A : Type) xs j (c : cst A) : (forall i, nth_error (c_gors _ c) i <> Some (Runs j)) -> c_plan _ c <> Some j -> j < length (c_plans _ c) ->
  c_of _ j (crun_ _ xs c) = c_of _ j c.
Proof. exact (consul_lost xs j c). Qed.
Print Assumptions C185_lost.
Theorem C185_refuted :
  (* Watch twice, the goroutines run afterwards: the first callback is never called, the second one twice for each change *)
  (exists xs, let c := crun_ nat xs (c0 _) in length (c_plans _ c) = 2 /\ c_log _ (crun_ _ [CChange _ 0 7; CChange _ 1 7] c) = [(1, 7); (1, 7)] /\
     forall ys, c_of _ 0 (crun_ _ ys c) = []) /\
  (* Watch twice, then Close: the first callback is called on and on *)
  (exists xs, let c := crun_ nat (xs ++ [CClose _]) (c0 _) in prompt (c0 _) xs = true /\
     forall ns, c_of _ 0 (crun_ _ (map (CChange _ 0) ns) c) = ns).
Proof.
  split.
  - exists [CWatch _; CWatch _; CStart _ 0; CStart _ 1]. cbv zeta. split; [vm_compute; reflexivity|]. split; [vm_compute; reflexivity|]. intros ys.
    rewrite consul_lost; [vm_compute; reflexivity| |vm_compute; discriminate|vm_compute; lia]. intros [|[|[|i]]] E; vm_compute in E; discriminate.
  - exists [CWatch _; CStart _ 0; CWatch _; CStart _ 1]. cbv zeta. split; [vm_compute; reflexivity|]. intros ns.
    set (c := crun_ nat _ _). assert (G : forall ns l, c_of _ 0 (crun_ _ (map (CChange _ 0) ns) (CSt nat [false; true] (Some 1) [Runs 0; Runs 1] l)) = map snd (filter (fun x => fst x =? 0) l) ++ ns).
    { clear. induction ns as [|n ns IH]; intros l; cbn [map crun_ fold_left]; [now rewrite app_nil_r|]. unfold crun_ in IH. cbn [cstep c_gors c_plans nth nth_error c_plan c_log]. rewrite IH.
      rewrite filter_app, map_app, <- app_assoc. reflexivity. }
    exact (G ns []).
Qed.
Print Assumptions C185_refuted.

Definition consul_busy : list (cev nat) := [CWatch _; CStart _ 0; CChange _ 0 1; CWatch _; CStart _ 1; CChange _ 1 2; CChange _ 0 2].
Example C185_own_case : prompt (c0 nat) consul_busy = true /\ nth_error (c_gors _ (crun_ _ consul_busy (c0 _))) 1 = Some (Runs 1) /\
  nth 1 (c_plans _ (crun_ _ consul_busy (c0 _))) true = false /\ c_log _ (crun_ _ consul_busy (c0 _)) = [(0, 1); (1, 2); (0, 2)].
Proof. vm_compute. repeat split. Qed.
Example C185_closed_case : c_plan _ (crun_ _ consul_busy (c0 _)) = Some 1 /\ c_of _ 1 (crun_ _ consul_busy (c0 _)) = [2].
Proof. vm_compute. split; reflexivity. Qed.
