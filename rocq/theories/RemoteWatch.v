(** Watch and Close of the etcd and consul providers (providers/etcd/etcd.go:221-256, providers/consul/consul.go:270-320): the
    goroutines that Watch starts.  The clients are third-party code, modelled after their documentation: a watch of etcd delivers the
    changes that come after it was made, and its channel is closed with the client; a consul plan hands every result to its handler
    until it is stopped.  Changes are values of any type [A]. *)
From Coq Require Import List Bool Arith.
Import ListNotations.

Section Remote.
Variable A : Type.

Fixpoint put_at {B} (l : list B) (i : nat) (x : B) : list B :=
  match l, i with [], _ => [] | _ :: t, O => x :: t | a :: t, S i => a :: put_at t i x end.

(** ** etcd *)
(** a goroutine: it has not asked for its channel yet, it is in the select, or it is over; the responses in its channel, whether its
    context is done, and how often it took the zero response of a closed channel *)
Inductive eat := Ask | InSelect | Gone.
Record egor := EGor { e_at : eat; e_chan : list (list A); e_done : bool; e_spins : nat }.
(** whether the client is open, the goroutines in the order of the calls of Watch, the calls of callbacks with their goroutine *)
Record est := ESt { e_client : bool; e_gors : list egor; e_calls : list (nat * A) }.
Definition e0 : est := ESt true [] [].
Inductive eev := EWatch | EClose | ECancel (i : nat) | EAsk (i : nat) | EChange (l : list A) | ETake (i : nat) | EQuit (i : nat).
Definition estep (s : est) (e : eev) : est :=
  let upd i g cs := ESt (e_client s) (put_at (e_gors s) i g) (e_calls s ++ cs) in
  match e with
  | EWatch => ESt (e_client s) (e_gors s ++ [EGor Ask [] false 0]) (e_calls s)                 (* go func, etcd.go:236 *)
  | EClose => ESt false (e_gors s) (e_calls s)
  | ECancel i => match nth_error (e_gors s) i with Some g => upd i (EGor (e_at g) (e_chan g) true (e_spins g)) [] | None => s end
  | EAsk i => match nth_error (e_gors s) i with                                                (* Client.Watch, etcd.go:237-241 *)
              | Some (EGor Ask q d n) => upd i (EGor InSelect q d n) []
              | _ => s
              end
  | EChange l =>
      if e_client s then
        ESt (e_client s) (map (fun g => match e_at g with InSelect => EGor InSelect (e_chan g ++ [l]) (e_done g) (e_spins g) | _ => g end) (e_gors s)) (e_calls s)
      else s
  | ETake i => match nth_error (e_gors s) i with                                               (* case wresp := <-w, etcd.go:247-251 *)
               | Some (EGor InSelect (l :: q) d n) => upd i (EGor InSelect q d n) (map (pair i) l)
               | Some (EGor InSelect [] d n) => if e_client s then s else upd i (EGor InSelect [] d (S n)) []
               | _ => s
               end
  | EQuit i => match nth_error (e_gors s) i with                                               (* case <-ctx.Done(), etcd.go:245 *)
               | Some (EGor InSelect q true n) => upd i (EGor Gone q true n) []
               | _ => s
               end
  end.
Definition erun (es : list eev) (s : est) : est := fold_left estep es s.
Definition e_of (i : nat) (s : est) : list A := map snd (filter (fun c => fst c =? i) (e_calls s)).

(** ** consul *)
(** a goroutine has not read s.plan yet (consul.go:315), or runs a plan, or is over *)
Inductive cat_ := Wait | Runs (j : nat) | Ended.
(** whether each plan is stopped (its handler is the callback of the Watch that made it), the plan in s.plan, the goroutines, the calls
    of callbacks: of which Watch *)
Record cst := CSt { c_plans : list bool; c_plan : option nat; c_gors : list cat_; c_log : list (nat * A) }.
Definition c0 : cst := CSt [] None [] [].
Inductive cev := CWatch | CClose | CStart (i : nat) | CChange (i : nat) (a : A) | CEnd (i : nat).
Definition cstep (s : cst) (e : cev) : cst :=
  match e with
  | CWatch => CSt (c_plans s ++ [false]) (Some (length (c_plans s))) (c_gors s ++ [Wait]) (c_log s)       (* consul.go:291-318 *)
  | CClose => match c_plan s with Some j => CSt (put_at (c_plans s) j true) (c_plan s) (c_gors s) (c_log s) | None => s end
  | CStart i => match nth_error (c_gors s) i, c_plan s with
                | Some Wait, Some j => CSt (c_plans s) (c_plan s) (put_at (c_gors s) i (Runs j)) (c_log s)
                | _, _ => s
                end
  | CChange i a => (* the plan that goroutine i runs has a result *)
      match nth_error (c_gors s) i with
      | Some (Runs j) => if nth j (c_plans s) true then s else CSt (c_plans s) (c_plan s) (c_gors s) (c_log s ++ [(j, a)])
      | _ => s
      end
  | CEnd i => match nth_error (c_gors s) i with
              | Some (Runs j) => if nth j (c_plans s) true then CSt (c_plans s) (c_plan s) (put_at (c_gors s) i Ended) (c_log s) else s
              | _ => s
              end
  end.
Definition crun_ (es : list cev) (s : cst) : cst := fold_left cstep es s.
Definition c_of (j : nat) (s : cst) : list A := map snd (filter (fun c => fst c =? j) (c_log s)).
End Remote.
