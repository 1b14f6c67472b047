(** What a user of a file that is opened for reading relies on (io/file.h:46-56). *)
From Verif Require Import Util Conc FibFileModel.

(** The bytes of the file in [off, off + len), as far as it has them. *)
Definition slice (file : list nat) (off len : nat) : list nat := firstn len (skipn off file).
(** A correct answer to Read (off, len): some of these bytes, from the first one on, and nothing only at the end of the file. *)
Definition right (file : list nat) (off len : nat) (d : list nat) : Prop :=
  (exists n, n <= len /\ d = slice file off n) /\ (d = [] -> length file <= off).
(** No prefetch fails. *)
Definition nofail (l : lab) : bool := match l with LTask true => false | _ => true end.
(** No read from the disk fails while the caller waits for it. *)
Definition nodisk (l : lab) : bool := match l with LRead _ _ e | LWake e => negb e | _ => true end.
(** The file is closed before it is destroyed. *)
Definition polite (l : lab) : bool := match l with LDestroy => false | _ => true end.
