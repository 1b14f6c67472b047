(** Specification of C01: a plain queue of bytes. Writing appends, consuming drops from the front
    (everything if asked for more than there is), reading returns the front. *)
From Verif Require Import Util IoBufModel.
Open Scope N_scope.

Definition spec_step (q : list N) (o : op) : list N * list N (* new queue, bytes handed out *) :=
  match o with
  | OWrite bs | OFill bs => (q ++ bs, [])
  | OConsume n => (drop n q, [])
  | ORead n => (drop n q, take n q)
  | OEnsure _ | OReserve _ | OShrink _ | OCompact => (q, [])
  | OClear => ([], [])
  end.

Fixpoint spec_run (q : list N) (h : list op) : list N * list N :=
  match h with
  | [] => (q, [])
  | o :: h' => let (q1, o1) := spec_step q o in
               let (q2, o2) := spec_run q1 h' in (q2, o1 ++ o2)
  end.

(** What the interface documentation asks of the caller, in terms of the observers
    GetMemoryUsage() (consumed = offs, input_length, append_length): do not commit more than the
    append buffer holds, do not read more than the input holds, and stay in the range where
    rounding a size_t up to a power of two is defined. *)
Definition pre (b : iobuf) (o : op) : Prop :=
  match o with
  | OWrite bs => offs b + InputLen b + len bs <= 2 ^ 63
  | OFill bs => len bs <= AppendLen b
  | OConsume n => offs b + n < 2 ^ 64
  | ORead n => n <= InputLen b
  | OEnsure n => offs b + InputLen b + n <= 2 ^ 63
  | OReserve n => n <= 2 ^ 63
  | OShrink _ | OClear | OCompact => True
  end.

(** A history executed by the model: final buffer and all bytes handed out; [None] if a call
    is undefined behaviour. *)
Fixpoint run (b : iobuf) (h : list op) : option (iobuf * list cell) :=
  match h with
  | [] => Some (b, [])
  | o :: h' => match step b o with
               | None => None
               | Some (b1, o1) => match run b1 h' with
                                  | None => None
                                  | Some (b2, o2) => Some (b2, o1 ++ o2)
                                  end
               end
  end.
(** The caller respected the preconditions at every call of the history. *)
Fixpoint respects (b : iobuf) (h : list op) : Prop :=
  match h with
  | [] => True
  | o :: h' => pre b o /\ forall b1 o1, step b o = Some (b1, o1) -> respects b1 h'
  end.

(** Reachable buffers: those produced by a history respecting the preconditions. *)
Definition reachable (b : iobuf) : Prop :=
  exists c h b0 out, c <= 2 ^ 63 /\ NewIoBuf c = Some b0 /\ respects b0 h /\ run b0 h = Some (b, out).

