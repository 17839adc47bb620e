(** Programs over many handles and copies: views share a tree, Dup copies it. *)
From Coq Require Import List NArith Bool Arith Lia.
From Verif Require Import GoStr Node Trie Spec ApiRefine Handles.
Import ListNotations.
Open Scope nat_scope.
Open Scope list_scope.

(** a call that makes a handle or changes its settings, or a call on the data through the handle [i] *)
Inductive wcall := WH (c : hcall) | WOp (i : nat) (o : op).
(** The handles: settings, and which tree they have; [n]: how many trees there are.  WithPrefix, WithPrefixReplaced, N, R and
    BR hand the root on (dupS(s.root, ...), radix/load.go:19-57), Dup makes a copy of it, trie.go:855-857. *)
Definition fstep (c : hcall) (hs : list (hdl * nat)) (n : nat) : option (list (hdl * nat) * nat) :=
  match nth_error hs (through c) with
  | None => None
  | Some (h, x) => Some
      match c with
      | CWith _ ps => (hs ++ [(withPrefix h ps, x)], n)
      | CRepl _ ps => (hs ++ [(withPrefixReplaced h ps, x)], n)
      | CN _ => (hs ++ [(viewN h, x)], n)
      | CR _ => (hs ++ [(viewR h, x)], n)
      | CBR _ => (hs ++ [(viewBR h, x)], n)
      | CDup _ => (hs ++ [(h, n)], S n)
      | CSetPrefix i ps => (set_at i (setPrefix h ps, x) hs, n)
      | CSetDelim i d => (set_at i (setDelimiter h d, x) hs, n)
      end
  end.
(** the tree Dup adds *)
Definition ftrees (clone : gval -> gval) (c : hcall) (hs : list (hdl * nat)) (ts : list tr) : list tr :=
  match c, nth_error hs (through c) with
  | CDup _, Some (_, x) => match nth_error ts x with Some t => ts ++ [Dup clone t] | None => ts end
  | _, _ => ts
  end.
(** a program; each call on the data answers to the handle it was made through.  Panic: there is no such handle *)
Fixpoint wrun (rf : nat) (clone : gval -> gval) (cs : list wcall) (hs : list (hdl * nat)) (ts : list tr)
  : res (list (hdl * nat) * list tr * list (nat * out)) :=
  match cs with
  | [] => Ok (hs, ts, [])
  | WH c :: cs =>
      match fstep c hs (length ts) with
      | None => Panic
      | Some (hs', _) => wrun rf clone cs hs' (ftrees clone c hs ts)
      end
  | WOp i o :: cs =>
      match nth_error hs i with
      | None => Panic
      | Some (h, x) =>
          match nth_error ts x with
          | None => Panic
          | Some t =>
              do (t', r) <- t_step rf h t o;
              do (w, rs) <- wrun rf clone cs hs (set_at x t' ts);
              Ok (w, (i, r) :: rs)
          end
      end
  end.
