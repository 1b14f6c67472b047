(** Model of files on io_uring: util/fibers/uring_file.cc.

    A file is the list of its bytes. The kernel answers each request as it likes, within its
    contract: [KN n] asks for [n] bytes to be moved, of which it does as many as there are (a read
    that can return something returns at least one byte); [KErr e] is -e. When the answers run out,
    the call is waiting. Left out: a size of 2^32 or more (PrepRead takes an unsigned), files that
    others change during the call, RWF flags, O_APPEND, fadvise. *)
From Verif Require Import Util IoStreamModel.
Local Open Scope N_scope.

Inductive kans := KN (n : N) | KErr (e : N).

(** read(2) at [off] of [cap] bytes from file [F], the kernel wishing to give [n]: how many. *)
Definition kread (F : list N) (off cap n : N) : N :=
  let avail := N.min cap (len F - off) in
  if avail =? 0 then 0 else N.max 1 (N.min n avail).
Definition slice (F : list N) (off k : N) : list N := take k (drop off F).

Definition sum (vs : list N) : N := fold_right N.add 0 vs.

(** ** ReadFileImpl::Read *)
(** Where the loop stands: at its head with the entries left, or in ReadAll with a buffer of [cnt]
    bytes of which [got] are filled, and the entries after it. *)
Inductive rpos := Vec (vs : list N) | In (cnt got : N) (vs : list N).

Inductive rout :=
| ROk (total : N) (out : list N)     (* returned; [out]: the bytes in the buffers, one after the other *)
| RFail (e : N) (out : list N)
| RWait (out : list N)
| RUb.                               (* wrote behind the end of a buffer *)

(** uring_file.cc:183-187: pass through all completed entries. *)
Fixpoint pass (read : N) (vs : list N) : N * list N :=
  match vs with
  | [] => (read, [])
  | c :: vs' => if c <=? read then pass (read - c) vs' else (read, vs)
  end.

(** uring_file.cc:171-208 (the do-while), 125-151 (ReadAll). [total] is read_total; the offset
    of the next request is always offset + read_total. In ReadAll [len] is not reduced: each
    request asks for the whole size of the buffer. *)
Fixpoint read_loop (F : list N) (off : N) (rs : list kans) (p : rpos) (total : N) (out : list N) : rout :=
  match rs with
  | [] => RWait out
  | KErr e :: _ => RFail e out
  | KN n :: rs' =>
    match p with
    | Vec vs =>
      let k := kread F (off + total) (sum vs) n in
      let out' := out ++ slice F (off + total) k in
      if k =? 0 then ROk total out
      else match pass k vs with
           | (0, []) => ROk (total + k) out'
           | (0, vs') => read_loop F off rs' (Vec vs') (total + k) out'
           | (r, c :: vs') => read_loop F off rs' (In (c - r) 0 vs') (total + k) out'
           | (_, []) => RUb
           end
    | In cnt got vs =>
      let k := kread F (off + total) cnt n in
      let out' := out ++ slice F (off + total) k in
      if k =? 0 then ROk total out
      else if cnt <? got + k then RUb
      else if got + k =? cnt then
             match vs with
             | [] => ROk (total + k) out'
             | _ => read_loop F off rs' (Vec vs) (total + k) out'
             end
      else read_loop F off rs' (In cnt (got + k) vs) (total + k) out'
    end
  end.
(** uring_file.cc:163-211. *)
Definition Read (F : list N) (off : N) (vs : list N) (rs : list kans) : rout :=
  match vs with [] => ROk 0 [] | _ => read_loop F off rs (Vec vs) 0 [] end.

(** ** LinuxFile::Write and LinuxFile::Read *)
(** pwrite(2): a gap before [off] is filled with zeros. *)
Definition pwrite (F : list N) (off : N) (d : list N) : list N :=
  match d with
  | [] => F
  | _ => take off (F ++ repeat 0 (N.to_nat (off - len F))) ++ d ++ drop (off + len d) F
  end.

Inductive lout :=
| LDone (F : list N) (out : list N)
| LFail (e : N) (F : list N) (out : list N)
| LWait (F : list N) (out : list N)
| LUb.

(** uring_file.cc:373-383 (Write) over io.h:279-312 (ApplyExactly, positions as in IoStreamModel.v)
    and 92-106 (WriteSomeInternal). *)
Fixpoint write_loop (F : list N) (off : N) (rs : list kans) (p : apos) : lout :=
  match p with
  | Outer [] => LDone F []
  | _ =>
    match rs with
    | [] => LWait F []
    | KErr e :: _ => LFail e F []
    | KN n :: rs' =>
      let k := N.min n (len (offered p)) in
      match advance k p with
      | None => LUb
      | Some p' => write_loop (pwrite F off (take k (offered p))) (off + k) rs' p'
      end
    end
  end.
Definition Write (F : list N) (off : N) (vs : list (list N)) (rs : list kans) : lout :=
  write_loop F off rs (Outer vs).

(** uring_file.cc:385-395 (Read); the buffers are given by what they held before. *)
Fixpoint lread_loop (F : list N) (off : N) (rs : list kans) (p : apos) (out : list N) : lout :=
  match p with
  | Outer [] => LDone F out
  | _ =>
    match rs with
    | [] => LWait F out
    | KErr e :: _ => LFail e F out
    | KN n :: rs' =>
      let k := kread F off (len (offered p)) n in
      match advance k p with
      | None => LUb
      | Some p' => lread_loop F (off + k) rs' p' (out ++ slice F off k)
      end
    end
  end.
Definition LRead (F : list N) (off : N) (vs : list (list N)) (rs : list kans) : lout :=
  lread_loop F off rs (Outer vs) [].

(** uring_file.cc:360-371, ReadFixed: success whatever the count (there is only a DCHECK). *)
Definition ReadFixed (F : list N) (off cap : N) (r : kans) : lout :=
  match r with
  | KErr e => LFail e F []
  | KN n => LDone F (slice F off (kread F off cap n))
  end.

(** ** Descriptors *)
(** The process's descriptor table, and the ring's table of registered files. *)
Record tables := { fdt : N -> option nat; fixed : N -> option nat }.
Definition upd (m : N -> option nat) (k : N) (v : option nat) : N -> option nat :=
  fun x => if x =? k then v else m x.

(** uring_file.cc:80-90, CloseFile. *)
Definition close_file (t : tables) (fd : N) : tables :=
  if 0 <? fd then {| fdt := upd (fdt t) fd None; fixed := fixed t |} else t.

(** LinuxFile: fd_ (a slot of the ring's table if is_direct_), is_direct_; -1 is [None]. *)
Record lfile := { lf_fd : option N; lf_direct : bool }.

(** uring_file.cc:306-317, the constructor: [slot] is what RegisterFd returned (FdTabModel.v), the
    file being in the ring's table then. *)
Definition make (t : tables) (fd : N) (slot : option N) : tables * lfile :=
  match slot with
  | Some k => ({| fdt := fdt t; fixed := upd (fixed t) k (fdt t fd) |}, {| lf_fd := Some k; lf_direct := true |})
  | None => (t, {| lf_fd := Some fd; lf_direct := false |})
  end.

(** The operations, and whether they add IOSQE_FIXED_FILE to the request of a direct file:
    uring_file.cc:99-100 (WriteSome), 115-116 (ReadSome), 397-445 (the asynchronous ones) do;
    360-363 (ReadFixed) and 466-477 (FSync) do not. *)
Inductive fop := OWriteSome | OReadSome | OReadFixedAsync | OReadAsync | OWriteFixedAsync | OWriteAsync
              | OFallocate | OReadFixed | OFSync.
Definition marks (o : fop) : bool := match o with OReadFixed | OFSync => false | _ => true end.
(** The file on which the kernel carries out the request. *)
Definition target (t : tables) (l : lfile) (o : fop) : option nat :=
  match lf_fd l with
  | None => None
  | Some k => if lf_direct l && marks o then fixed t k else fdt t k
  end.

(** uring_file.cc:339-354, Close; [back]: what UnregisterFd gives back for a direct file, [None]: a
    negative number. *)
Definition lclose (t : tables) (l : lfile) (back : option N) : tables * lfile :=
  match lf_fd l with
  | None => (t, l)
  | Some k =>
    if lf_direct l
    then match back with
         | None => (t, l)
         | Some fd => (close_file {| fdt := fdt t; fixed := upd (fixed t) k None |} fd,
                       {| lf_fd := None; lf_direct := false |})
         end
    else (close_file t k, {| lf_fd := None; lf_direct := lf_direct l |})
  end.
