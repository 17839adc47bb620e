(** Watch and Close of the file provider (providers/file/file.go:118-233): the goroutines that Watch starts, and the flag they share.

    A provider may be watched more than once, by calls with contexts of their own.  Every call starts a goroutine with an fsnotify
    watcher of its own; all of them compare and swap one flag, which Close resets.  Simplified: Watch starts its goroutine and adds the
    directory to its watcher in one step; WithWatchEnabled(true) is given and the file exists (otherwise Watch starts nothing). *)
From Coq Require Import List NArith Bool Arith.
From Verif Require Import GoStr Provider.
Import ListNotations.
Open Scope nat_scope.

(** where a goroutine is: before its CompareAndSwap (file.go:160), at the test of the loop (168), in the select (169), or over; and
    the text and time of the last event *)
Inductive at_ := AtCas | AtTest | AtSelect | Over.
Record runner := Run { r_at : at_; r_last : gostring; r_time : N; r_queue : list fmsg; r_done : bool; r_open : bool }.
(** the flag s.watching, the goroutines in the order of the calls of Watch, and the calls of callbacks, each with its goroutine *)
Record wstate := Ws { w_flag : bool; w_runs : list runner; w_calls : list (nat * fcall) }.
Definition w0 : wstate := Ws false [] [].

(** one message in the select, file.go:173-229: text and time of the last event, the calls, whether the loop is left *)
Definition one (last : gostring) (lastAt : N) (m : fmsg) : gostring * N * list fcall * bool :=
  match m with
  | FClosed | FError => (last, lastAt, [FcError], true)
  | FEvent e =>
      if str_eqb (f_text e) last && (f_at e <? lastAt + 5)%N then (last, lastAt, [], false)
      else
        let '(calls, stop) :=
          if negb (f_mine e) then ([], false)
          else if f_remove e then ([FcError], true)
          else if negb (f_eval e) then ([FcError], true)
          else if negb (f_wc e) then ([], false)
          else ([FcChange], false) in
        (f_text e, f_at e, calls, stop)
  end.

(** what can happen: a call of Watch; a call of Close; the context of a goroutine is done; a message for all watchers that are open;
    a goroutine goes on; a goroutine in its select takes the end of its context *)
Inductive wev := DoWatch | DoClose | Cancel (i : nat) | Arrive (m : fmsg) | Step (i : nat) | Quit (i : nat).
Fixpoint set_at {A} (l : list A) (i : nat) (x : A) : list A :=
  match l, i with [], _ => [] | _ :: t, O => x :: t | a :: t, S i => a :: set_at t i x end.
Definition wstep (s : wstate) (e : wev) : wstate :=
  match e with
  | DoWatch => Ws (w_flag s) (w_runs s ++ [Run AtCas [] 0 [] false true]) (w_calls s)
  | DoClose => Ws false (w_runs s) (w_calls s)
  | Cancel i =>
      match nth_error (w_runs s) i with
      | Some r => Ws (w_flag s) (set_at (w_runs s) i (Run (r_at r) (r_last r) (r_time r) (r_queue r) true (r_open r))) (w_calls s)
      | None => s
      end
  | Arrive m =>
      Ws (w_flag s)
        (map (fun r => if r_open r then Run (r_at r) (r_last r) (r_time r) (r_queue r ++ [m]) (r_done r) (r_open r) else r) (w_runs s))
        (w_calls s)
  | Step i =>
      match nth_error (w_runs s) i with
      | Some r =>
          let go a o := Run a (r_last r) (r_time r) (r_queue r) (r_done r) o in
          match r_at r with
          | AtCas => if w_flag s then Ws true (set_at (w_runs s) i (go Over (r_open r))) (w_calls s)         (* the watcher stays open *)
                     else Ws true (set_at (w_runs s) i (go AtTest (r_open r))) (w_calls s)
          | AtTest => if w_flag s then Ws true (set_at (w_runs s) i (go AtSelect (r_open r))) (w_calls s)
                      else Ws false (set_at (w_runs s) i (go Over false)) (w_calls s)
          | AtSelect =>
              match r_queue r with
              | [] => s
              | m :: q =>
                  let '(last, tm, calls, stop) := one (r_last r) (r_time r) m in
                  Ws (w_flag s) (set_at (w_runs s) i (Run (if stop then Over else AtTest) last tm q (r_done r) (r_open r && negb stop)))
                    (w_calls s ++ map (pair i) calls)
              end
          | Over => s
          end
      | None => s
      end
  | Quit i =>
      match nth_error (w_runs s) i with
      | Some r => match r_at r with
                  | AtSelect => if r_done r then Ws (w_flag s) (set_at (w_runs s) i (Run Over (r_last r) (r_time r) (r_queue r) true (r_open r))) (w_calls s)
                                else s                                                             (* return, file.go:171: not closed *)
                  | _ => s
                  end
      | None => s
      end
  end.
Definition wrun (es : list wev) (s : wstate) : wstate := fold_left wstep es s.
(** the messages that came for goroutine [i] among [es]: those after its Watch *)
Fixpoint received (i : nat) (es : list wev) : list fmsg :=
  match es with
  | [] => []
  | DoWatch :: es => match i with O => flat_map (fun e => match e with Arrive m => [m] | _ => [] end) es | S i => received i es end
  | _ :: es => received i es
  end.
Definition calls_of (i : nat) (s : wstate) : list fcall := map snd (filter (fun c => fst c =? i) (w_calls s)).
Definition running (r : runner) : bool := match r_at r with AtTest | AtSelect => true | _ => false end.
