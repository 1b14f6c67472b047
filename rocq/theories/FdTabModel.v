(** The table of direct descriptors: util/fibers/uring_proactor.cc:730-781 (RegisterFd,
    TranslateDirectFd, UnregisterFd). Release build: DCHECKs are off.

    The kernel answers each io_uring_register_files_update as it likes ([ok]); when it says yes, its own
    table changes. A failing update in UnregisterFd ends the process (LOG(FATAL)). *)
From Verif Require Import Util Conc.
From Coq Require Import ZArith.

(** [tbl] register_fds_, [nxt] next_free_index_, [cnt] direct_fds_cnt_, [ktbl] the kernel's table;
    ghosts: [live] the slots handed out and not given back, with their descriptors, [fails] how many
    times the kernel refused an update in RegisterFd. *)
Record st := mk { tbl : list Z; nxt : nat; cnt : nat; ktbl : list Z; live : list (nat * Z); fails : nat }.

(** Operations: RegisterFd(fd), the kernel agreeing or not; UnregisterFd(slot). *)
Inductive lab := Reg (fd : Z) (ok : bool) | Unreg (slot : nat) (ok : bool).

(** std::find(begin + i, end, -1): the first free slot at or after [i]; [None] = end. *)
Fixpoint find_free (l : list Z) (i : nat) : option nat :=
  match l with
  | [] => None
  | x :: r => match i with
              | O => if (x =? -1)%Z then Some 0 else option_map S (find_free r 0)
              | S i => option_map S (find_free r i)
              end
  end.

(** uring_proactor.cc:730-750; [None] = kInvalidDirectFd. *)
Definition reg_result (s : st) (ok : bool) : option nat :=
  match find_free (tbl s) (nxt s) with
  | None => None
  | Some k => if ok then Some k else None
  end.
Definition reg (s : st) (fd : Z) (ok : bool) : outcome st :=
  if (length (tbl s) <? nxt s)%nat then Ub
  else match find_free (tbl s) (nxt s) with
       | None => Next s
       | Some k =>
           if ok then Next (mk (set k fd (tbl s)) (S k) (S (cnt s)) (set k fd (ktbl s)) ((k, fd) :: live s) (fails s))
           else Next (mk (set k fd (tbl s)) k (cnt s) (ktbl s) (live s) (S (fails s)))
       end.

(** uring_proactor.cc:752-757 *)
Definition translate (s : st) (k : nat) : option Z := nth_error (tbl s) k.

(** uring_proactor.cc:759-781 *)
Definition unreg_result (s : st) (k : nat) : option Z := nth_error (tbl s) k.
Definition unreg (s : st) (k : nat) (ok : bool) : outcome st :=
  match nth_error (tbl s) k with
  | None => Ub
  | Some fd =>
      if ok then Next (mk (set k (-1)%Z (tbl s)) (if (k <? nxt s)%nat then k else nxt s) (cnt s - 1) (set k (-1)%Z (ktbl s))
                          (filter (fun p => negb (fst p =? k)%nat) (live s)) (fails s))
      else Stuck
  end.

(** The caller passes an open descriptor to RegisterFd, and a slot it got and has not given back to
    UnregisterFd. *)
Definition step (s : st) (l : lab) : outcome st :=
  match l with
  | Reg fd ok => if (0 <=? fd)%Z then reg s fd ok else Stuck
  | Unreg k ok => if existsb (fun p => (fst p =? k)%nat) (live s) then unreg s k ok else Stuck
  end.

(** uring_proactor.cc:192, :257-260: [n] = uring_direct_table_len. *)
Definition init (n : nat) : st := mk (repeat (-1)%Z n) 0 0 (repeat (-1)%Z n) [] 0.
