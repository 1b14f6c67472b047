(** C80: files on io_uring. *)
From Verif Require Import Util IoStreamModel UFileModel UFileSpec UFileProof.
Local Open Scope N_scope.

(** A read of a ReadonlyFile delivers, in the order of the buffers, the bytes of the file from the
    offset on, as many as the buffers hold or the file has, and returns their number; when it fails or
    has not returned yet, what is in the buffers is a beginning of that. Missing: it can write behind a
    buffer ([RUb], below). *)
Theorem file_read_partial : forall F off vs rs,
  match Read F off vs rs with
  | ROk n out => out = piece F off (sum vs) /\ n = len out
  | RFail _ out | RWait out => begins out (piece F off (sum vs))
  | RUb => True
  end.
Proof. exact file_read_partial_pf. Qed.

(** As long as the kernel gives all there is, nothing is written behind a buffer. *)
Theorem file_read_safe_partial : forall F off vs rs,
  (forall n, List.In (KN n) rs -> sum vs <= n) -> Read F off vs rs <> RUb.
Proof. exact file_read_safe_partial_pf. Qed.

(** A read returns after at most one request per byte, and one more. *)
Theorem file_read_ends : forall F off vs rs,
  sum vs < len rs -> forall w, Read F off vs rs <> RWait w.
Proof. exact file_read_ends_pf. Qed.

(** With short reads it can write behind the end of a buffer: after a partial read of a buffer of 10,
    a request for the 9 bytes left gives 5, the next one again asks for 9 and gets them. *)
Theorem file_read_refuted : exists F off vs rs, Read F off vs rs = RUb.
Proof.
  exists (repeat 7 100%nat), 3, [10], [KN 1; KN 5; KN 9]. vm_compute. reflexivity.
Qed.

Example file_read_met :
  Read [1; 2; 3; 4; 5; 6; 7] 1 [2; 0; 3] [KN 1; KN 1; KN 2; KN 1] = ROk 5 [2; 3; 4; 5; 6] /\
  Read [1; 2; 3; 4; 5; 6; 7] 4 [2; 3] [KN 9; KN 9] = ROk 3 [5; 6; 7] /\
  Read [1; 2; 3; 4; 5; 6; 7] 1 [2; 3] [KN 3; KErr 5] = RFail 5 [2; 3; 4].
Proof. vm_compute. auto. Qed.

(** LinuxFile::Write: success means that all the data is in the file at the offset, a hole in front of
    it reads as zeros, and the rest is as it was; otherwise this holds of a beginning of the data. *)
Theorem file_write : forall F off vs rs,
  match Write F off vs rs with
  | LDone F' _ => written F off (concat vs) F'
  | LFail _ F' _ | LWait F' _ => exists d, begins d (concat vs) /\ written F off d F'
  | LUb => False
  end.
Proof. exact file_write_pf. Qed.

(** It ends if the kernel writes something each time. *)
Theorem file_write_ends : forall F off vs rs,
  (forall a, List.In a rs -> exists n, a = KN n /\ 0 < n) -> len (concat vs) < len rs ->
  exists F', Write F off vs rs = LDone F' [] /\ written F off (concat vs) F'.
Proof. exact file_write_ends_pf. Qed.

(** [written] leaves no choice. *)
Theorem file_written_unique : forall F off d F1 F2, written F off d F1 -> written F off d F2 -> F1 = F2.
Proof. exact written_unique. Qed.

Example file_write_met :
  Write [1; 2; 3; 4; 5; 6] 1 [[11; 12]; []; [13; 14; 15]] [KN 1; KN 1; KN 2; KN 1] = LDone [1; 11; 12; 13; 14; 15] [] /\
  Write [1] 3 [[8; 9]] [KN 1; KN 5] = LDone [1; 0; 0; 8; 9] [] /\
  Write [1; 2; 3; 4] 1 [[8; 9]] [KN 1; KErr 28] = LFail 28 [1; 8; 3; 4] [].
Proof. vm_compute. auto. Qed.

(** LinuxFile::Read: success means that the buffers were filled with the bytes from the offset on. *)
Theorem linux_read : forall F off vs rs,
  match LRead F off vs rs with
  | LDone F' out => F' = F /\ out = piece F off (len (concat vs)) /\ len out = len (concat vs)
  | LFail _ F' out | LWait F' out => F' = F /\ begins out (piece F off (len (concat vs)))
  | LUb => False
  end.
Proof. exact linux_read_pf. Qed.

(** Inside the file it ends. *)
Theorem linux_read_ends_partial : forall F off vs rs, off + len (concat vs) <= len F ->
  (forall a, List.In a rs -> exists n, a = KN n) -> len (concat vs) < len rs ->
  LRead F off vs rs = LDone F (piece F off (len (concat vs))).
Proof. exact linux_read_ends_partial_pf. Qed.

(** Past the end of the file it never returns: it goes on asking for ever. *)
Theorem linux_read_past_end_refuted : forall F off vs rs, len F < off + len (concat vs) -> concat vs <> [] ->
  (forall a, List.In a rs -> exists n, a = KN n) -> exists out, LRead F off vs rs = LWait F out.
Proof. exact linux_read_past_end_refuted_pf. Qed.

Example linux_read_met :
  LRead [1; 2; 3; 4; 5] 1 [[0; 0]; [0; 0]] [KN 1; KN 1; KN 2] = LDone [1; 2; 3; 4; 5] [2; 3; 4; 5] /\
  LRead [1; 2; 3; 4; 5] 3 [[0; 0]; [0; 0]] [KN 9; KN 9; KN 9; KN 9; KN 9; KN 9] = LWait [1; 2; 3; 4; 5] [4; 5].
Proof. vm_compute. auto. Qed.

(** ReadFixed changes nothing but the buffer, and fills it if the kernel gives all there is. *)
Theorem read_fixed_partial : forall F off cap r,
  match ReadFixed F off cap r with
  | LDone F' out => F' = F /\ begins out (piece F off cap) /\ (forall n, r = KN n -> cap <= n -> out = piece F off cap)
  | LFail e F' out => F' = F /\ out = [] /\ r = KErr e
  | _ => False
  end.
Proof. exact read_fixed_partial_pf. Qed.

(** It reports success for a short read as well, without a count. *)
Theorem read_fixed_refuted : exists F off cap r out,
  off + cap <= len F /\ ReadFixed F off cap r = LDone F out /\ out <> piece F off cap.
Proof.
  exists [1; 2; 3; 4], 1, 3, (KN 2), [2; 3]. split; [vm_compute; discriminate|]. split; [reflexivity|].
  vm_compute. discriminate.
Qed.

(** Each operation acts on the file that was opened, except ReadFixed and FSync of a direct file. *)
Theorem file_target_partial : forall t fd slot o,
  slot = None \/ (o <> OReadFixed /\ o <> OFSync) ->
  let '(t', l) := make t fd slot in target t' l o = fdt t fd.
Proof. exact file_target_partial_pf. Qed.

(** These two take the slot for a descriptor: they act on whatever file has that number. *)
Theorem file_target_refuted : forall t fd k other, fdt t k = other -> fdt t fd <> other ->
  forall o, o = OReadFixed \/ o = OFSync ->
  let '(t', l) := make t fd (Some k) in target t' l o = other /\ target t' l o <> fdt t fd.
Proof. exact file_target_refuted_pf. Qed.

(** Opening and closing a file closes its descriptor, once, and leaves all the others. *)
Theorem file_close_partial : forall t fd slot, fd <> 0 ->
  (forall k, slot = Some k -> fixed t k = None) ->
  let '(t1, l1) := make t fd slot in
  let '(t2, l2) := lclose t1 l1 (Some fd) in
  fdt t2 fd = None /\ (forall x, x <> fd -> fdt t2 x = fdt t x) /\ (forall k, fixed t2 k = fixed t k) /\
  (forall o, target t2 l2 o = None) /\ forall b, lclose t2 l2 b = (t2, l2).
Proof. exact file_close_partial_pf. Qed.

(** Descriptor 0 stays open. *)
Theorem file_close_zero_refuted : forall t slot,
  let '(t1, l1) := make t 0 slot in
  let '(t2, l2) := lclose t1 l1 (Some 0) in
  fdt t2 0 = fdt t 0 /\ forall o, target t2 l2 o = None.
Proof. exact file_close_zero_refuted_pf. Qed.

(** Descriptors 0, 5 and 6 are open (files 10, 15 and 16); 5 is registered in slot 0: FSync goes to
    file 10. *)
Definition some_tables : tables :=
  {| fdt := fun x => if x =? 0 then Some 10%nat else if x =? 5 then Some 15%nat
                     else if x =? 6 then Some 16%nat else None; fixed := fun _ => None |}.
Example file_target_met : let '(t1, l1) := make some_tables 5 (Some 0) in
  target t1 l1 OWriteSome = Some 15%nat /\ target t1 l1 OFSync = Some 10%nat /\
  let '(t2, l2) := lclose t1 l1 (Some 5) in
  fdt t2 5 = None /\ fdt t2 6 = Some 16%nat /\ target t2 l2 OWriteSome = None.
Proof. vm_compute. auto. Qed.

Print Assumptions file_read_partial.
Print Assumptions file_read_safe_partial.
Print Assumptions file_read_ends.
Print Assumptions file_read_refuted.
Print Assumptions file_write.
Print Assumptions file_write_ends.
Print Assumptions file_written_unique.
Print Assumptions linux_read.
Print Assumptions linux_read_ends_partial.
Print Assumptions linux_read_past_end_refuted.
Print Assumptions read_fixed_partial.
Print Assumptions read_fixed_refuted.
Print Assumptions file_target_partial.
Print Assumptions file_target_refuted.
Print Assumptions file_close_partial.
Print Assumptions file_close_zero_refuted.
