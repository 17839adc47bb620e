(** Which events of the directory Watch of the file provider takes for events of its file (providers/file/file.go:122-148, 187-191),
    on a Unix system.

    Not of the repository, and modelled after their documentation: path/filepath (Clean, Split, EvalSymlinks) and the names fsnotify
    gives to events (the cleaned name of the watched directory, a slash, the name of the entry). *)
From Coq Require Import List NArith Bool Arith.
From Verif Require Import GoStr.
Import ListNotations.
Open Scope nat_scope.
Local Open Scope N_scope.

Definition slash : N := 47.
Definition dot : gostring := [46].
Definition dots : gostring := [46; 46].

(** filepath.Clean: components that are empty or "." are left out, ".." takes the one before it away; at the root ".." is left out *)
Fixpoint comps (s : gostring) : list gostring :=
  match s with
  | [] => [[]]
  | c :: s => if c =? slash then [] :: comps s else match comps s with x :: r => (c :: x) :: r | [] => [[c]] end
  end.
Definition rooted (s : gostring) : bool := match s with c :: _ => c =? slash | [] => false end.
Definition comp_step (r : bool) (st : list gostring) (c : gostring) : list gostring :=
  if str_eqb c [] || str_eqb c dot then st
  else if str_eqb c dots then match st with
                              | x :: st' => if str_eqb x dots then dots :: st else st'
                              | [] => if r then [] else [dots]
                              end
  else c :: st.
Definition norm (r : bool) (cs : list gostring) : list gostring := fold_left (comp_step r) cs [].
Fixpoint joined (cs : list gostring) : gostring :=
  match cs with [] => [] | [c] => c | c :: cs => c ++ slash :: joined cs end.
Definition render (r : bool) (cs : list gostring) : gostring :=
  if r then slash :: joined cs else match cs with [] => dot | _ => joined cs end.
Definition clean (s : gostring) : gostring := render (rooted s) (rev (norm (rooted s) (comps s))).

(** filepath.Split: up to the last slash, and what follows it *)
Fixpoint split_path (s : gostring) : gostring * gostring :=
  match s with
  | [] => ([], [])
  | c :: s => let (d, b) := split_path s in
              match d with
              | [] => if c =? slash then ([c], b) else ([], c :: b)
              | _ => (c :: d, b)
              end
  end.
(** the name of an event for the entry [n] of the directory given to w.Add *)
Definition event_name (dir n : gostring) : gostring := clean dir ++ slash :: n.

(** the watched directory: entries are files with a content or symbolic links to an entry of the directory or elsewhere.
    Simplified: the directory itself is not reached through links, so that EvalSymlinks of an entry that is no link cleans its path. *)
Inductive entry := File (c : N) | Link (n : gostring) | Away (p : gostring) (c : N).
Definition direct := gostring -> option entry.
(** what the entry [n] leads to: the entry it ends at, and the content *)
Fixpoint follow (fuel : nat) (d : direct) (n : gostring) : option (gostring + gostring * N) :=
  match d n with
  | Some (File _) => Some (inl n)
  | Some (Away p c) => Some (inr (p, c))
  | Some (Link m) => match fuel with O => None | S f => follow f d m end
  | None => None
  end.
Definition links : nat := 255.       (* EvalSymlinks gives up after 255 links *)
(** filepath.EvalSymlinks of the entry [n] of [dir] *)
Definition eval_links (d : direct) (dir n : gostring) : option gostring :=
  match follow links d n with
  | Some (inl m) => Some (clean (dir ++ m))
  | Some (inr (p, _)) => Some (clean p)
  | None => None
  end.
(** Watch: the real path it keeps, file.go:125-133 *)
Definition real_path (d : direct) (file : gostring) : option gostring :=
  let (dir, b) := split_path file in option_map clean (eval_links d dir b).
(** is the event one of the file? file.go:187-191 *)
Definition mine (file real : gostring) (n : gostring) : bool :=
  let ev := clean (event_name (fst (split_path file)) n) in str_eqb ev real || str_eqb ev file.

(** what happens in the directory: the file at an entry is written, or an entry is made anew; each gives an event for that entry *)
Inductive dstep := Write (n : gostring) (c : N) | Put (n : gostring) (e : entry).
Definition dname (x : dstep) : gostring := match x with Write n _ => n | Put n _ => n end.
Definition ddo (d : direct) (x : dstep) : direct :=
  match x with
  | Write n c => fun m => if str_eqb m n then match d n with Some (File _) => Some (File c) | e => e end else d m
  | Put n e => fun m => if str_eqb m n then Some e else d m
  end.
(** what ReadBytes gives: the content [file] leads to *)
Definition content (d : direct) (n : gostring) : option N :=
  match follow links d n with
  | Some (inl m) => match d m with Some (File c) => Some c | _ => None end
  | Some (inr (_, c)) => Some c
  | None => None
  end.
