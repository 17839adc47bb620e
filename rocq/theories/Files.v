(** Models of the file providers as seen by loading and saving: providers/file/file.go, providers/fs/fs.go,
    over a disk of files. *)
From Coq Require Import List NArith Bool Arith.
From Verif Require Import GoStr Trie Cvter Store Save.
Import ListNotations.
Open Scope nat_scope.

(** the files by name *)
Definition disk := gostring -> option gostring.
Definition put_file (w : disk) (f b : gostring) : disk := fun g => if str_eqb f g then Some b else w g.
(** os.ReadFile, fs.FS.Open and io.ReadAll: the error of a missing file *)
Definition ENoFile : lerr := EOther 1.
(** store.ErrWritableDisabled *)
Definition EWriteOff : lerr := EOther 2.
Definition read_file (w : disk) (f : gostring) : gostring * option lerr :=
  match w f with Some b => (b, None) | None => ([], Some ENoFile) end.

(** pvdr of providers/file, file.go:50-58: the file, WithWriteBackEnabled, and the closer if it is watched *)
Record fpv := FPv { fp_file : gostring; fp_write : bool; fp_closer : option nat }.
(** as a provider of a loader: Read is not implemented, ReadBytes reads the file: file.go:90-98 *)
Definition file_provider (w : disk) (p : fpv) : provider :=
  Prov (None, Some ENotImpl) (Some (read_file w (fp_file p))) None None (fp_closer p).
(** Write, file.go:100-107 (os.WriteFile truncates) *)
Definition file_Write (w : disk) (p : fpv) (b : gostring) : disk * option lerr :=
  if fp_write p then (put_file w (fp_file p) b, None) else (w, Some EWriteOff).
(** providers/fs: Read is not implemented, ReadBytes reads the file, fs.go:77-93; Write is not implemented *)
Definition fs_provider (w : disk) (f : gostring) : provider :=
  Prov (None, Some ENotImpl) (Some (read_file w f)) None None None.

(** what Write of the file provider answers *)
Definition file_sink (p : fpv) : sink := SkOnce (if fp_write p then None else Some EWriteOff).
(** the disk after the bytes were handed over *)
Definition written (w : disk) (p : fpv) (r : option gostring * option lerr) : disk * option lerr :=
  match fst r with
  | Some b => (fst (file_Write w p b), snd r)
  | None => (w, snd r)
  end.
(** Save and SaveAs of a loader to a file *)
Definition file_Save (rf : nat) (order : gmap -> gmap) (ld : loader) (enc : encoder) (p : fpv) (w : disk) (t : tr)
  : res (disk * option lerr) :=
  do r <- loader_Save rf order ld enc (file_sink p) t; Ok (written w p r).
Definition file_SaveAs (rf : nat) (order : gmap -> gmap) (h : hdl) (enc : encoder) (p : fpv) (w : disk) (t : tr)
  : res (disk * option lerr) :=
  do r <- loader_SaveAs rf order h (Some enc) (Some (None, file_sink p)) t; Ok (written w p r).
